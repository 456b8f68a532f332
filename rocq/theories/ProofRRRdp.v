(** The Renyi divergences of randomised response. *)
From Verif Require Import Base XReal Exn SpecRdp SpecDP SpecRenyi ProofDP ProofRenyi TypesEvent TypesRelation ModelMake SpecMake ProofRR ModelRdp ProofConv.
Local Arguments Rltb : simpl never.
Local Arguments Rleb : simpl never.
Local Arguments Reqb : simpl never.

Lemma rr_prob_self p k x : rr_prob p k x x = 1 - p + p / IZR k.
Proof. unfold rr_prob. rewrite Z.eqb_refl. ring. Qed.
Lemma rr_prob_other p k x o : o <> x -> rr_prob p k x o = p / IZR k.
Proof. intros N. unfold rr_prob. destruct (Z.eqb_spec o x); [contradiction | ring]. Qed.

Lemma IZR_ge1 k : (1 <= k)%Z -> 1 <= IZR k.
Proof. intros H. apply (IZR_le 1 k H). Qed.
Lemma IZR_ge2 k : (2 <= k)%Z -> 2 <= IZR k.
Proof. intros H. apply (IZR_le 2 k H). Qed.

Lemma rr_exper_valid p k x y : 0 <= p <= 1 -> In x (buckets k) -> In y (buckets k) -> valid (rr_exper p k x y).
Proof.
  intros Hp Hx Hy. pose proof Hx as Kx. apply buckets_In in Kx.
  assert (K : 1 <= IZR k) by (apply IZR_ge1; lia).
  assert (N : forall z o, 0 <= rr_prob p k z o).
  { intros z o. unfold rr_prob.
    assert (0 <= p / IZR k) by (apply Rmult_le_pos; [lra | left; apply Rinv_0_lt_compat; lra]).
    destruct (o =? z)%Z; lra. }
  assert (S : forall z, In z (buckets k) -> rsum (rr_prob p k z) (buckets k) = 1).
  { intros z Hz. rewrite (bucket_sum1 k _ z (p / IZR k) Hz) by (intros; apply rr_prob_other; assumption).
    rewrite rr_prob_self. field. lra. }
  split; [intros; split; apply N|]. split; apply S; assumption.
Qed.
Lemma rr_special_valid p k x : 0 <= p <= 1 -> In x (buckets k) -> valid (rr_special p k x).
Proof.
  intros Hp Hx. destruct (rr_exper_valid p k x x Hp Hx Hx) as (N & S & _).
  pose proof Hx as Kx. apply buckets_In in Kx. assert (K : 1 <= IZR k) by (apply IZR_ge1; lia).
  split; [|split; [exact S|]].
  - intros o Ho. split; [apply (N o Ho)|]. cbn. apply Rmult_le_pos; [lra | left; apply Rinv_0_lt_compat; lra].
  - cbn. rewrite rsum_const, buckets_length by lia. field. lra.
Qed.

(** ** Moments *)
Lemma ac_pos E : (forall o, In o (outs E) -> 0 < prQ E o) -> absolutely_continuous E.
Proof. intros H o Ho Z. specialize (H o Ho). lra. Qed.

Lemma term_pos pP pQ a : 0 < pP ->
  (if Reqb pP 0 then 0 else pP * Rpower (pP / pQ) (a - 1)) = pP * Rpower (pP / pQ) (a - 1).
Proof. intros H. rewrite Reqb_false by lra. reflexivity. Qed.

Section One.
  Context (p : R) (k : Z) (Hp : 0 < p < 1) (Hk : (2 <= k)%Z).
  Let A := 1 - p + p / IZR k.
  Let B := p / IZR k.
  Let Kpos : 2 <= IZR k := IZR_ge2 k Hk.

  Lemma B_pos : 0 < B. Proof. apply Rdiv_lt_0_compat; lra. Qed.
  Lemma A_pos : 0 < A. Proof. pose proof B_pos. unfold A. fold B. lra. Qed.
  Lemma B_le_A : B <= A. Proof. unfold A. fold B. lra. Qed.

  Lemma one_log : ln (IZR k / p - IZR k + 1) = ln (A / B).
  Proof. f_equal. unfold A, B. field. lra. Qed.

  Lemma one_moment x y a : In x (buckets k) -> In y (buckets k) -> x <> y ->
    renyi_moment (rr_exper p k x y) a =
    rsum (fun ab => snd ab * exp (fst ab))
      [(a * ln (IZR k / p - IZR k + 1), p / IZR k); (- a * ln (IZR k / p - IZR k + 1), 1 - p + p / IZR k);
       (0, (1 - 2 / IZR k) * p)].
  Proof.
    intros Hx Hy N. unfold renyi_moment. cbn [outs rr_exper prP prQ].
    pose proof A_pos. pose proof B_pos.
    assert (Nn : 0 < A / B) by (apply Rdiv_lt_0_compat; assumption).
    rewrite (bucket_sum k _ x y B Hx Hy N).
    - rewrite !rr_prob_self. rewrite (rr_prob_other p k y x) by assumption.
      rewrite (rr_prob_other p k x y) by congruence. fold A B.
      rewrite !Reqb_false by lra. rewrite one_log. cbn [rsum fst snd fold_right map].
      rewrite exp_0. fold A B. unfold Rpower.
      replace (ln (B / A)) with (- ln (A / B)) by (rewrite !ln_div by assumption; ring).
      replace (exp ((a - 1) * ln (A / B))) with (exp (a * ln (A / B)) * (B / A)).
      2: { replace ((a - 1) * ln (A / B)) with (a * ln (A / B) - ln (A / B)) by ring.
           rewrite exp_minus, exp_ln by assumption. field. lra. }
      replace (exp ((a - 1) * - ln (A / B))) with (exp (- a * ln (A / B)) * (A / B)).
      2: { replace ((a - 1) * - ln (A / B)) with (- a * ln (A / B) + ln (A / B)) by ring.
           rewrite exp_plus, exp_ln by assumption. reflexivity. }
      replace ((IZR k - 2) * B) with ((1 - 2 / IZR k) * p) by (unfold B; field; lra).
      cbn. field. lra.
    - intros o _ N1 N2. rewrite !rr_prob_other by assumption. fold B. rewrite Reqb_false by lra.
      unfold Rdiv. rewrite Rinv_r by lra. unfold Rpower. rewrite ln_1, Rmult_0_r, exp_0. ring.
  Qed.

  Lemma one_ac x y : absolutely_continuous (rr_exper p k x y).
  Proof.
    apply ac_pos. intros o _. cbn. unfold rr_prob. pose proof B_pos. fold B. destruct (o =? y)%Z; lra.
  Qed.

  (** Order infinity. *)
  Lemma one_max x y r : In x (buckets k) -> In y (buckets k) -> x <> y ->
    (forall o, In o (buckets k) -> rr_prob p k x o <= exp r * rr_prob p k y o) <->
    ln (IZR k / p - IZR k + 1) <= r.
  Proof.
    intros Hx Hy N. rewrite one_log. pose proof A_pos as HA. pose proof B_pos as HB. pose proof B_le_A as HAB.
    assert (HR : 0 < A / B) by (apply Rdiv_lt_0_compat; assumption). split.
    - intros H. specialize (H x Hx). rewrite rr_prob_self, rr_prob_other in H by assumption. fold A B in H.
      rewrite <- (ln_exp r). apply ln_le_mono; [assumption|].
      apply (Rmult_le_reg_r B); [assumption|]. replace (A / B * B) with A by (field; lra). assumption.
    - intros H o Ho. apply exp_le in H. rewrite exp_ln in H by assumption.
      assert (H' : A <= exp r * B).
      { apply (Rmult_le_compat_r B) in H; [|lra]. replace (A / B * B) with A in H by (field; lra). assumption. }
      assert (E1 : 1 <= exp r).
      { apply (Rmult_le_reg_r B); [assumption|]. lra. }
      destruct (Z.eq_dec o x) as [->|Nx].
      + rewrite rr_prob_self, rr_prob_other by assumption. assumption.
      + rewrite (rr_prob_other p k x o) by assumption. fold B.
        assert (B <= rr_prob p k y o) by (unfold rr_prob; fold B; destruct (o =? y)%Z; lra).
        assert (1 * B <= exp r * rr_prob p k y o) by (apply Rmult_le_compat; lra). lra.
  Qed.
End One.

Section Special.
  Context (p : R) (k : Z) (Hp : 0 < p < 1) (Hk : (2 <= k)%Z) (x : Z) (Hx : In x (buckets k)).
  Let A := 1 - p + p / IZR k.
  Let B := p / IZR k.
  Let Kpos : 2 <= IZR k := IZR_ge2 k Hk.
  Let L1 := ln (IZR k * (1 - p) + p).
  Let L2 := ln p.

  Lemma l1_pos : 0 < IZR k * (1 - p) + p.
  Proof. assert (0 < IZR k * (1 - p)) by (apply Rmult_lt_0_compat; lra). lra. Qed.

  Lemma special_moment a : renyi_moment (rr_special p k x) a =
    rsum (fun ab => snd ab * exp (fst ab)) [(a * L1, 1 / IZR k); (a * L2, 1 - 1 / IZR k)].
  Proof.
    unfold renyi_moment. cbn [outs rr_special prP prQ].
    pose proof (A_pos p k Hp Hk) as HA. pose proof (B_pos p k Hp Hk) as HB. fold A in HA. fold B in HB.
    pose proof l1_pos as P1.
    rewrite (bucket_sum1 k _ x (B * Rpower p (a - 1)) Hx).
    - rewrite rr_prob_self. fold A. rewrite Reqb_false by lra.
      replace (A / (1 / IZR k)) with (IZR k * (1 - p) + p) by (unfold A; field; lra).
      cbn [rsum fst snd fold_right map]. unfold Rpower. fold L1 L2. cbn.
      replace (exp ((a - 1) * L1)) with (exp (a * L1) / (IZR k * (1 - p) + p)).
      2: { replace ((a - 1) * L1) with (a * L1 - L1) by ring. rewrite exp_minus.
           assert (EL : exp L1 = IZR k * (1 - p) + p) by (apply exp_ln; assumption). rewrite EL. reflexivity. }
      replace (exp ((a - 1) * L2)) with (exp (a * L2) / p).
      2: { replace ((a - 1) * L2) with (a * L2 - L2) by ring. rewrite exp_minus.
           assert (EL : exp L2 = p) by (apply exp_ln; lra). rewrite EL. reflexivity. }
      unfold A, B. field. lra.
    - intros o _ N. rewrite rr_prob_other by assumption. fold B. rewrite Reqb_false by lra.
      f_equal. f_equal. unfold B. field. lra.
  Qed.

  Lemma special_moment_swap a : renyi_moment (swap (rr_special p k x)) a =
    rsum (fun ab => snd ab * exp (fst ab)) [((1 - a) * L1, 1 / IZR k); ((1 - a) * L2, 1 - 1 / IZR k)].
  Proof.
    unfold renyi_moment. cbn [outs rr_special prP prQ swap].
    pose proof (A_pos p k Hp Hk) as HA. pose proof (B_pos p k Hp Hk) as HB. fold A in HA. fold B in HB.
    pose proof l1_pos as P1.
    assert (I : 0 < 1 / IZR k) by (apply Rdiv_lt_0_compat; lra).
    rewrite (bucket_sum1 k _ x (1 / IZR k * exp ((1 - a) * L2)) Hx).
    - rewrite rr_prob_self. fold A. rewrite Reqb_false by lra.
      replace (1 / IZR k / A) with (/ (IZR k * (1 - p) + p)).
      2: { unfold A. field. split; [lra|]. nra. }
      unfold Rpower. rewrite ln_Rinv by assumption. fold L1.
      replace ((a - 1) * - L1) with ((1 - a) * L1) by ring.
      cbn. field. lra.
    - intros o _ N. rewrite rr_prob_other by assumption. fold B. rewrite Reqb_false by lra.
      f_equal. unfold Rpower. replace (1 / IZR k / B) with (/ p) by (unfold B; field; lra).
      rewrite ln_Rinv by lra. fold L2. f_equal. ring.
  Qed.

  Lemma special_ac : absolutely_continuous (rr_special p k x) /\ absolutely_continuous (swap (rr_special p k x)).
  Proof.
    pose proof (B_pos p k Hp Hk) as HB. split; apply ac_pos; intros o _; cbn.
    - apply Rdiv_lt_0_compat; lra.
    - unfold rr_prob. destruct (o =? x)%Z; lra.
  Qed.

  Lemma other_bucket : exists y, In y (buckets k) /\ y <> x.
  Proof.
    apply buckets_In in Hx. destruct (Z.eq_dec x 0) as [->|N].
    - exists 1%Z. rewrite buckets_In. lia.
    - exists 0%Z. rewrite buckets_In. lia.
  Qed.

  Lemma special_max r :
    ((forall o, In o (buckets k) -> rr_prob p k x o <= exp r * (1 / IZR k)) /\
     (forall o, In o (buckets k) -> 1 / IZR k <= exp r * rr_prob p k x o)) <->
    Rmax L1 (- L2) <= r.
  Proof.
    pose proof (A_pos p k Hp Hk) as HA. pose proof (B_pos p k Hp Hk) as HB. fold A in HA. fold B in HB.
    pose proof l1_pos as P1. assert (AB : B <= A) by (unfold A; fold B; lra).
    assert (KA : IZR k * (1 - p) + p = A * IZR k) by (unfold A; field; lra).
    assert (KB : p = B * IZR k) by (unfold B; field; lra).
    split.
    - intros [H1 H2]. apply Rmax_lub.
      + specialize (H1 x Hx). rewrite rr_prob_self in H1. fold A in H1.
        unfold L1. rewrite <- (ln_exp r). apply ln_le_mono; [assumption|]. rewrite KA.
        apply (Rmult_le_compat_r (IZR k)) in H1; [|lra].
        replace (exp r * (1 / IZR k) * IZR k) with (exp r) in H1 by (field; lra). assumption.
      + destruct other_bucket as (y & Hy & Ny). specialize (H2 y Hy). rewrite rr_prob_other in H2 by assumption. fold B in H2.
        unfold L2. rewrite <- (ln_exp r), <- ln_Rinv by lra. apply ln_le_mono; [apply Rinv_0_lt_compat; lra|].
        apply (Rmult_le_reg_r p); [lra|]. rewrite Rinv_l by lra.
        apply (Rmult_le_compat_r (IZR k)) in H2; [|lra].
        replace (1 / IZR k * IZR k) with 1 in H2 by (field; lra). rewrite KB. lra.
    - intros H. pose proof (Rle_trans _ _ _ (Rmax_l _ _) H) as H1. pose proof (Rle_trans _ _ _ (Rmax_r _ _) H) as H2.
      apply exp_le in H1. unfold L1 in H1. rewrite exp_ln in H1 by assumption.
      apply exp_le in H2. unfold L2 in H2. rewrite exp_Ropp, exp_ln in H2 by lra.
      assert (I : 0 < / IZR k) by (apply Rinv_0_lt_compat; lra).
      split; intros o Ho.
      + apply Rle_trans with A; [unfold rr_prob; fold B; unfold A; fold B; destruct (o =? x)%Z; lra|].
        rewrite KA in H1. apply (Rmult_le_reg_r (IZR k)); [lra|].
        replace (exp r * (1 / IZR k) * IZR k) with (exp r) by (field; lra). assumption.
      + apply Rle_trans with (exp r * B).
        * apply (Rmult_le_reg_r (IZR k)); [lra|]. replace (1 / IZR k * IZR k) with 1 by (field; lra).
          rewrite Rmult_assoc, <- KB. apply (Rmult_le_compat_r p) in H2; [|lra]. rewrite Rinv_l in H2 by lra. assumption.
        * apply Rmult_le_compat_l; [apply exp_pos_nonneg|]. unfold rr_prob. fold B. destruct (o =? x)%Z; lra.
  Qed.
End Special.

(** ** The least bound *)
Lemma least_real E a r : 1 < a -> absolutely_continuous E -> absolutely_continuous (swap E) ->
  Rmax (renyi E a) (renyi (swap E) a) = r -> least_bound E (Fin a) (Fin r).
Proof.
  intros Ha A1 A2 <-. split.
  - split; (split; [assumption|]; split; [lra|]); [apply Rmax_l | apply Rmax_r].
  - intros r' [B1 B2]. destruct r' as [r'| | |]; try contradiction; [|reflexivity].
    cbn. apply Rleb_true. apply Rmax_lub; [apply B1 | apply B2].
Qed.

(** No finite bound when an outcome is possible on one input only. *)
Lemma least_inf E a : ~ absolutely_continuous E -> least_bound E a PInf.
Proof.
  intros N. split; [split; exact I|]. intros r' [B1 _]. destruct r' as [r'| | |]; try contradiction; [|reflexivity].
  elim N. apply B1.
Qed.

Lemma renyi_same E a : valid E -> (forall o, In o (outs E) -> prP E o = prQ E o) -> 1 <= a -> renyi E a = 0.
Proof.
  intros V H Ha. unfold renyi. destruct (Reqb_spec a 1) as [->|N].
  - unfold kl. apply rsum_zero. intros o Ho. destruct (Reqb_spec (prP E o) 0) as [Z|Z]; [reflexivity|].
    rewrite <- (H o Ho). unfold Rdiv. rewrite Rinv_r, ln_1 by assumption. ring.
  - replace (renyi_moment E a) with 1; [rewrite ln_1; unfold Rdiv; ring|].
    rewrite <- (P_sum E V) at 1. unfold renyi_moment. apply rsum_ext. intros o Ho.
    destruct (Reqb_spec (prP E o) 0) as [Z|Z]; [assumption|].
    rewrite <- (H o Ho). unfold Rdiv. rewrite Rinv_r by assumption. unfold Rpower. rewrite ln_1, Rmult_0_r, exp_0. ring.
Qed.

Lemma least_same E a : valid E -> (forall o, In o (outs E) -> prP E o = prQ E o) ->
  (exists x, a = Fin x /\ 1 < x) \/ a = PInf -> least_bound E a (Fin 0).
Proof.
  intros V H Ha.
  assert (A1 : absolutely_continuous E) by (intros o Ho Z; rewrite H by assumption; assumption).
  assert (A2 : absolutely_continuous (swap E)) by (intros o Ho Z; cbn in *; rewrite <- H by assumption; assumption).
  destruct Ha as [(x & -> & Hx)| ->].
  - apply least_real; try assumption. rewrite !renyi_same; try assumption; try lra.
    + apply Rmax_left. lra.
    + apply valid_swap; assumption.
    + intros o Ho. symmetry. apply H. exact Ho.
  - split.
    + split; (split; [assumption|]); intros o Ho; cbn; rewrite exp_0; cbn in *; rewrite (H o Ho); lra.
    + intros r' [B1 _]. destruct r' as [r'| | |]; try contradiction; [|reflexivity].
      cbn. apply Rleb_true. eapply renyi_nonneg; eassumption.
Qed.

Definition rdp_order (a : xr) : Prop := (exists x, a = Fin x /\ 1 < x) \/ a = PInf.

Lemma xleb_order a : rdp_order a -> xleb a (Fin 1) = false.
Proof. intros [(x & -> & H)| ->]; [cbn; apply Rleb_false; assumption | reflexivity]. Qed.

Lemma rr_one_exact p k a r E : 0 <= p <= 1 -> (1 <= k)%Z -> rdp_order a ->
  rr_rdp_one p k a = Ok r -> rr_pair REPLACE_ONE p k E -> least_bound E a r.
Proof.
  intros Hp Hk Ha H (x & y & Hx & Hy & N & ->). unfold rr_rdp_one in H. rewrite xleb_order in H by assumption.
  assert (Hk2 : (2 <= k)%Z).
  { pose proof Hx as X. pose proof Hy as Y. apply buckets_In in X. apply buckets_In in Y. lia. }
  destruct (Z.eqb_spec k 1) as [->|_]; [lia|]. cbn [orb] in H.
  destruct (Reqb_spec p 1) as [->|P1].
  { injection H as <-. apply least_same; [apply rr_exper_valid; assumption | | assumption].
    intros o _. cbn. unfold rr_prob. destruct (o =? x)%Z, (o =? y)%Z; ring. }
  destruct (Reqb_spec p 0) as [->|P0].
  { injection H as <-. apply least_inf. intros AC. specialize (AC x Hx). cbn in AC.
    rewrite rr_prob_self, rr_prob_other in AC by assumption. unfold Rdiv in AC. lra. }
  assert (Hp' : 0 < p < 1) by lra.
  destruct Ha as [(b & -> & Hb)| ->]; injection H as <-.
  - apply least_real; [assumption | apply one_ac; assumption | apply (one_ac p k Hp' Hk2 y x) |].
    unfold renyi. rewrite Reqb_false by lra. unfold logsumexp.
    rewrite <- (one_moment p k Hp' Hk2 x y b Hx Hy N).
    replace (renyi_moment (swap (rr_exper p k x y)) b) with (renyi_moment (rr_exper p k x y) b).
    + apply Rmax_left. lra.
    + transitivity (renyi_moment (rr_exper p k y x) b); [|reflexivity].
      rewrite !one_moment by (assumption || congruence). reflexivity.
  - split.
    + split; (split; [first [apply one_ac; assumption | apply (one_ac p k Hp' Hk2 y x)]|]);
        cbn; apply one_max; try assumption; try lra; try congruence.
    + intros r' [B _]. destruct r' as [r'| | |]; try contradiction; [|reflexivity]. destruct B as [_ B].
      cbn. apply Rleb_true. apply (one_max p k Hp' Hk2 x y r' Hx Hy N). exact B.
Qed.

Lemma rr_special_exact p k a r E : 0 <= p <= 1 -> (1 <= k)%Z -> rdp_order a ->
  rr_rdp_special p k a = Ok r -> rr_pair REPLACE_SPECIAL p k E -> least_bound E a r.
Proof.
  intros Hp Hk Ha H (x & Hx & ->). unfold rr_rdp_special in H. rewrite xleb_order in H by assumption.
  pose proof (rr_special_valid p k x Hp Hx) as V.
  destruct (Z.eqb_spec k 1) as [->|K1].
  { cbn [orb] in H. injection H as <-. apply least_same; [assumption | | assumption].
    intros o Ho. apply buckets_In in Ho. apply buckets_In in Hx. assert (o = x) by lia. subst o.
    cbn. rewrite rr_prob_self. field. }
  assert (Hk2 : (2 <= k)%Z) by lia. cbn [orb] in H. pose proof (IZR_ge2 k Hk2) as K2.
  destruct (Reqb_spec p 1) as [->|P1].
  { injection H as <-. apply least_same; [assumption | | assumption].
    intros o _. cbn. unfold rr_prob. destruct (o =? x)%Z; ring. }
  destruct (Reqb_spec p 0) as [->|P0].
  { injection H as <-. destruct (other_bucket k Hk2 x Hx) as (y & Hy & Ny).
    split; [split; exact I|]. intros r' [_ B]. destruct r' as [r'| | |]; try contradiction; [|reflexivity].
    destruct B as [AC _]. specialize (AC y Hy). cbn in AC. rewrite rr_prob_other in AC by assumption.
    exfalso. assert (X : 1 / IZR k = 0) by (apply AC; unfold Rdiv; ring).
    assert (0 < 1 / IZR k) by (apply Rdiv_lt_0_compat; lra). lra. }
  assert (Hp' : 0 < p < 1) by lra. destruct (special_ac p k Hp' Hk2 x) as [A1 A2].
  destruct Ha as [(b & -> & Hb)| ->]; injection H as <-.
  - apply least_real; try assumption. unfold renyi. rewrite Reqb_false by lra. unfold logsumexp.
    rewrite (special_moment p k Hp' Hk2 x Hx), (special_moment_swap p k Hp' Hk2 x Hx).
    assert (D : forall u v, Rmax (u / (b - 1)) (v / (b - 1)) = Rmax u v / (b - 1)).
    { intros u v. unfold Rdiv. rewrite (Rmult_comm u), (Rmult_comm v), (Rmult_comm (Rmax u v)).
      apply RmaxRmult. left. apply Rinv_0_lt_compat. lra. }
    apply D.
  - destruct (proj2 (special_max p k Hp' Hk2 x Hx _) (Rle_refl _)) as [M1 M2]. split.
    + split; (split; [assumption|]); assumption.
    + intros r' [B1 B2]. destruct r' as [r'| | |]; try contradiction; [|reflexivity].
      destruct B1 as [_ B1], B2 as [_ B2]. cbn. apply Rleb_true.
      apply (special_max p k Hp' Hk2 x Hx r'). split; assumption.
Qed.

Lemma rr_rdp_exact p k a rel v E : rdp_order a -> rdp_randomized_response (Fin p) k [a] rel = Ok v ->
  rr_pair rel p k E -> exists r, v = [r] /\ least_bound E a r.
Proof.
  intros Ha H P. cbn in H.
  destruct (Rltb_spec p 0) as [|P0], (Rltb_spec 1 p) as [|P1]; try discriminate H. cbn [orb] in H.
  destruct (Z.ltb_spec k 1); [discriminate|].
  destruct rel; [contradiction| |]; cbn [relation_eqb] in H;
    [destruct (rr_rdp_one p k a) as [r|] eqn:R | destruct (rr_rdp_special p k a) as [r|] eqn:R]; try discriminate;
    cbn in H; injection H as <-; exists r; (split; [reflexivity|]);
    [eapply rr_one_exact | eapply rr_special_exact]; try eassumption; lra.
Qed.

(** The charge is computed for every valid parameter, order by order. *)
Lemma rr_rdp_total p k orders rel : 0 <= p <= 1 -> (1 <= k)%Z -> (forall a, In a orders -> rdp_order a) ->
  exists v, rdp_randomized_response (Fin p) k orders rel = Ok v /\ length v = length orders /\ forall i a, nth_error orders i = Some a ->
      exists r, nth_error v i = Some r /\ rdp_randomized_response (Fin p) k [a] rel = Ok [r].
Proof.
  intros Hp Hk Ho. cbn. rewrite !Rltb_false by lra. cbn [orb].
  destruct (Z.ltb_spec k 1); [lia|].
  set (f := (if relation_eqb rel REPLACE_ONE then rr_rdp_one else rr_rdp_special) p k).
  assert (T : forall a, rdp_order a -> exists r, f a = Ok r).
  { intros a Ha. unfold f. destruct (relation_eqb rel REPLACE_ONE); unfold rr_rdp_one, rr_rdp_special;
      rewrite xleb_order by assumption; (destruct (_ || _)%bool; [eexists; reflexivity|]);
      (destruct (Reqb p 0); [eexists; reflexivity|]);
      destruct Ha as [(x & -> & _)| ->]; eexists; reflexivity. }
  clearbody f. induction orders as [|a orders IH].
  - exists []. split; [reflexivity|]. split; [reflexivity|]. intros [|i] a; discriminate.
  - destruct (T a) as [r Hr]; [apply Ho; left; reflexivity|].
    destruct IH as (v & Hv & L & N); [intros; apply Ho; right; assumption|].
    exists (r :: v). split; [|split].
    + cbn [map_res]. rewrite Hr. cbn [bind]. rewrite Hv. reflexivity.
    + cbn. rewrite L. reflexivity.
    + intros [|i] b E; cbn in E.
      * injection E as <-. exists r. split; [reflexivity|]. cbn [map_res]. rewrite Hr. reflexivity.
      * apply N. assumption.
Qed.
