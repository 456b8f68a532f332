(** Additive noise with a monotone likelihood ratio: the divergence of every neighbouring
    pair, with subsampling, is at most that of the pair used by the code. *)
From Verif Require Import Base XReal SpecDP SpecMech ProofDP ProofPeak.
Local Arguments Rltb : simpl never.
Local Arguments Rleb : simpl never.
Local Arguments Reqb : simpl never.

(** [pk l] is where the density of the noise shifted by -s stops to exceed e^l times the
    density of the noise *)
Definition shape (F : R -> R) (s : R) (pk : R -> xr) : Prop :=
  is_cdf F /\ 0 <= s /\ forall l, uni (fun x => F (x + s) - exp l * F x) (pk l).

Lemma cdf_shift F a : is_cdf F -> is_cdf (fun x => F (x + a)).
Proof.
  intros (B & M & L & U). split; [intros; apply B|]. split; [intros; apply M; lra|]. split.
  - intros e He. destruct (L e He) as [x Hx]. exists (x - a). replace (x - a + a) with x by lra. assumption.
  - intros e He. destruct (U e He) as [x Hx]. exists (x - a). replace (x - a + a) with x by lra. assumption.
Qed.
Lemma cdf_sampled q P0 P1 : 0 <= q <= 1 -> is_cdf P0 -> is_cdf P1 -> is_cdf (sampled q P0 P1).
Proof.
  intros Hq (B & M & L & U) (B1 & M1 & L1 & U1). unfold sampled. split; [|split; [|split]].
  - intros x. specialize (B x). specialize (B1 x). nra.
  - intros x y H. specialize (M x y H). specialize (M1 x y H). nra.
  - intros e He. destruct (L e He) as [x Hx]. destruct (L1 e He) as [y Hy]. exists (Rmin x y).
    assert (P0 (Rmin x y) <= P0 x) by (apply M, Rmin_l). assert (P1 (Rmin x y) <= P1 y) by (apply M1, Rmin_r).
    destruct (Req_dec q 0) as [->|]; [lra|]. nra.
  - intros e He. destruct (U e He) as [x Hx]. destruct (U1 e He) as [y Hy]. exists (Rmax x y).
    assert (P0 x <= P0 (Rmax x y)) by (apply M, Rmax_l). assert (P1 y <= P1 (Rmax x y)) by (apply M1, Rmax_r).
    destruct (Req_dec q 0) as [->|]; [lra|]. nra.
Qed.
Lemma cdf_remove F q s : 0 <= q <= 1 -> is_cdf F -> is_cdf (remove_upper F q s).
Proof. intros Hq HF. apply cdf_sampled; [assumption | assumption | apply cdf_shift, HF]. Qed.
Lemma cdf_add F q s : 0 <= q <= 1 -> is_cdf F -> is_cdf (add_lower F q s).
Proof. intros Hq HF. apply cdf_sampled; [assumption | assumption | apply (cdf_shift F (- s)), HF]. Qed.

(** ** Subsampling *)
Definition peak_remove (q : R) (pk : R -> xr) (l : R) : xr :=
  if Rltb (1 - q) (exp l) then pk (ln ((exp l - (1 - q)) / q)) else PInf.
Definition peak_add (q s : R) (pk : R -> xr) (l : R) : xr :=
  if Rltb (exp l * (1 - q)) 1 then xadd (pk (ln (exp l * q / (1 - exp l * (1 - q))))) (Fin s) else MInf.

Lemma remove_uni F s pk q l : shape F s pk -> 0 < q <= 1 -> uni (gap (remove_upper F q s) F (exp l)) (peak_remove q pk l).
Proof.
  intros (HF & Hs & HU) Hq. unfold peak_remove. destruct (Rltb_spec (1 - q) (exp l)) as [H|H].
  - assert (T : 0 < (exp l - (1 - q)) / q) by (apply Rdiv_lt_0_compat; lra).
    specialize (HU (ln ((exp l - (1 - q)) / q))). rewrite exp_ln in HU by assumption.
    apply (uni_ext _ _ _) with (2 := uni_scale _ _ q (Rlt_le _ _ (proj1 Hq)) HU).
    intros x. unfold gap, remove_upper, sampled. field. lra.
  - apply uni_incr. intros x y L. unfold gap, remove_upper, sampled. destruct HF as (B & M & _).
    pose proof (M x y L). pose proof (M (x + s) (y + s) ltac:(lra)). nra.
Qed.
Lemma add_uni F s pk q l : shape F s pk -> 0 < q <= 1 -> uni (gap F (add_lower F q s) (exp l)) (peak_add q s pk l).
Proof.
  intros (HF & Hs & HU) Hq. unfold peak_add. pose proof (exp_pos l) as E. destruct (Rltb_spec (exp l * (1 - q)) 1) as [H|H].
  - assert (C : 0 < 1 - exp l * (1 - q)) by lra.
    assert (T : 0 < exp l * q / (1 - exp l * (1 - q))) by (apply Rdiv_lt_0_compat; [nra | lra]).
    specialize (HU (ln (exp l * q / (1 - exp l * (1 - q))))). rewrite exp_ln in HU by assumption.
    pose proof (uni_shift _ _ (- s) (uni_scale _ _ _ (Rlt_le _ _ C) HU)) as G. rewrite Ropp_involutive in G.
    eapply uni_ext; [|exact G]. intros x. cbn beta. unfold gap, add_lower, sampled.
    replace (x + - s + s) with x by lra. change (x + - s) with (x - s). field. lra.
  - apply uni_decr. intros x y L. unfold gap, add_lower, sampled. destruct HF as (B & M & _).
    pose proof (M x y L). pose proof (M (x - s) (y - s) ltac:(lra)).
    assert (0 <= exp l * q) by nra. nra.
Qed.
Lemma remove_peaked F s pk q l : shape F s pk -> 0 < q <= 1 ->
  peaked (gap (remove_upper F q s) F (exp l)) (1 - exp l) (peak_remove q pk l).
Proof.
  intros HS Hq. pose proof (exp_pos l). apply uni_peaked; [apply cdf_remove; [lra | apply HS] | apply HS | lra | apply remove_uni; assumption].
Qed.
Lemma add_peaked F s pk q l : shape F s pk -> 0 < q <= 1 ->
  peaked (gap F (add_lower F q s) (exp l)) (1 - exp l) (peak_add q s pk l).
Proof.
  intros HS Hq. pose proof (exp_pos l). apply uni_peaked; [apply HS | apply cdf_add; [lra | apply HS] | lra | apply add_uni; assumption].
Qed.

(** ** Every neighbouring pair *)
Definition mirror (ok : R -> Prop) (F : R -> R) (r : R -> R) : Prop :=
  (forall x y, x <= y -> r y <= r x) /\ (forall x, F x = 1 - F (r x)) /\ (forall x v, ok v -> r (x - v) = r x + v).
Definition noise_family (ok : R -> Prop) (F : R -> R) : Prop :=
  (forall s, 0 <= s -> ok s -> exists pk, shape F s pk) /\ (exists r, mirror ok F r) /\
  (forall v, ok v -> ok (- v)) /\ (forall v w, ok v -> ok w -> ok (v + w)) /\ ok 0.

Lemma divergence_unique P Q eps d d' : divergence_is P Q eps d -> divergence_is P Q eps d' -> d = d'.
Proof.
  intros [A (c & S & E)] [A' (c' & S' & E')]. specialize (A c' S'). specialize (A' c S). lra.
Qed.
Definition xrefl (r : R -> R) (x : xr) : xr :=
  match x with Fin a => Fin (r a) | PInf => MInf | MInf => PInf | NaN => NaN end.
Lemma xrefl_antitone r : (forall x y, x <= y -> r y <= r x) -> antitone (xrefl r).
Proof.
  intros H. split; [|split; reflexivity]. intros x y L. destruct x as [a| | |], y as [b| | |]; cbn in *; try discriminate; try reflexivity.
  revert L. destruct (Rleb_spec a b); [|discriminate]. intros _. apply Rleb_true. auto.
Qed.
Lemma hend_mono H H' lim x : (forall a, H a <= H' a) -> hend H lim x <= hend H' lim x.
Proof. intros L. destruct x; cbn; auto; lra. Qed.
Lemma hend_ext H H' lim x : (forall a, H a = H' a) -> hend H lim x = hend H' lim x.
Proof. intros L. destruct x; cbn; auto. Qed.

(** shift by v, and either a smaller shift to the left, or its mirror image *)
Lemma gains_shift (H H0 : R -> R) lim p v : uni H0 p -> (forall x, H x = H0 (x - v)) ->
  (forall pp, uni H pp -> peaked H lim pp) -> (forall x, x <> NaN -> exists a, hend H lim x = a) ->
  gains_at_most (hend H lim) (hend H0 lim p).
Proof.
  intros U E PK _. pose proof (uni_shift _ _ (- v) U) as U'. rewrite Ropp_involutive in U'.
  assert (U2 : uni H (xadd p (Fin v))) by (eapply uni_ext; [|exact U']; intros x; rewrite E; reflexivity).
  pose proof (peaked_gains _ _ _ (PK _ U2)) as G.
  replace (hend H0 lim p) with (hend H lim (xadd p (Fin v))); [exact G|].
  destruct p; cbn; try reflexivity. rewrite E. f_equal. lra.
Qed.

Section Neighbours.
  Context (ok : R -> Prop) (F : R -> R) (Fam : noise_family ok F) (q s : R) (Hq : 0 < q <= 1) (Hs : 0 <= s) (Hok : ok s).
  Let HF : is_cdf F.
  Proof. destruct Fam as (S & _ & _ & _ & O0). destruct (S 0 (Rle_refl 0) O0) as [pk HS]. apply HS. Qed.

  Lemma remove_gains eps dr v d : divergence_is (remove_upper F q s) F eps dr -> ok v -> ok d -> Rabs d <= s ->
    gains_at_most (hend (gap (sampled q (add_noise F v) (add_noise F (v + d))) (add_noise F v) (exp eps)) (1 - exp eps)) dr.
  Proof.
    intros HD Ov Od Hd. destruct Fam as (HS & (r & Rm & Rf & Rv) & On & Op & O0).
    assert (OD : ok (Rabs d)) by (unfold Rabs; destruct (Rcase_abs d); auto).
    destruct (HS (Rabs d) (Rabs_pos d) OD) as [pk S1]. destruct (HS s Hs Hok) as [pks S2].
    pose proof (divergence_unique _ _ _ _ _ HD (divergence_peak _ _ _ _ (remove_peaked F s pks q eps S2 Hq))) as ->.
    set (p := peak_remove q pk eps). pose proof (remove_peaked F (Rabs d) pk q eps S1 Hq) as PK. fold p in PK.
    assert (LE : hend (gap (remove_upper F q (Rabs d)) F (exp eps)) (1 - exp eps) p <=
                 hend (gap (remove_upper F q s) F (exp eps)) (1 - exp eps) (peak_remove q pks eps)).
    { eapply Rle_trans; [|apply (peaked_best _ _ _ (remove_peaked F s pks q eps S2 Hq) p), (proj1 PK)].
      apply hend_mono. intros a. unfold gap, remove_upper, sampled. destruct HF as (_ & M & _).
      pose proof (M (a + Rabs d) (a + s) ltac:(lra)). nra. }
    intros cuts HC. eapply Rle_trans; [|exact LE]. destruct (Rle_dec d 0) as [Hn|Hp].
    - (* shifted to the left *)
      rewrite Rabs_left1 in * by lra.
      assert (G : gains_at_most (hend (gap (sampled q (add_noise F v) (add_noise F (v + d))) (add_noise F v) (exp eps)) (1 - exp eps))
                   (hend (gap (remove_upper F q (- d)) F (exp eps)) (1 - exp eps) p)).
      { apply (gains_shift _ _ _ p v (remove_uni F (- d) pk q eps S1 Hq)).
        - intros x. unfold gap, remove_upper, sampled, add_noise. replace (x - (v + d)) with (x - v + - d) by lra. reflexivity.
        - intros pp. apply uni_peaked; [|apply (cdf_shift F (- v)), HF | left; apply exp_pos].
          apply cdf_sampled; [lra | apply (cdf_shift F (- v)), HF | apply (cdf_shift F (- (v + d))), HF].
        - eauto. }
      apply G, HC.
    - (* mirrored *)
      rewrite Rabs_right in * by lra.
      assert (U2 : uni (fun x => gap (remove_upper F q d) F (exp eps) (x + v)) (xadd p (Fin (- v)))) by (apply uni_shift, remove_uni; assumption).
      assert (PK2 : peaked (gap (fun x => remove_upper F q d (x + v)) (fun x => F (x + v)) (exp eps)) (1 - exp eps) (xadd p (Fin (- v)))).
      { apply uni_peaked; [apply (cdf_shift (remove_upper F q d)), cdf_remove; [lra | exact HF] | apply cdf_shift, HF | left; apply exp_pos | exact U2]. }
      replace (hend (gap (remove_upper F q d) F (exp eps)) (1 - exp eps) p)
        with (hend (gap (fun x => remove_upper F q d (x + v)) (fun x => F (x + v)) (exp eps)) (1 - exp eps) (xadd p (Fin (- v)))).
      2: { clear. destruct p; cbn; try reflexivity. unfold gap. replace (r + - v + v) with r by lra. reflexivity. }
      eapply (peaked_gains_mirror _ _ _ _ (1 - exp eps) (xrefl r) PK2 (xrefl_antitone r Rm)); [|exact HC].
      intros x Nx. destruct x as [a| | |]; cbn [hend xrefl]; [|lra|lra|congruence].
      unfold gap, remove_upper, sampled, add_noise.
      rewrite (Rf (a - v)), (Rf (a - (v + d))). rewrite (Rv a v Ov), (Rv a (v + d) (Op v d Ov Od)).
      replace (r a + (v + d)) with (r a + v + d) by lra. lra.
  Qed.

  Lemma add_gains eps da v d : divergence_is F (add_lower F q s) eps da -> ok v -> ok d -> Rabs d <= s ->
    gains_at_most (hend (gap (add_noise F v) (sampled q (add_noise F v) (add_noise F (v + d))) (exp eps)) (1 - exp eps)) da.
  Proof.
    intros HD Ov Od Hd. destruct Fam as (HS & (r & Rm & Rf & Rv) & On & Op & O0).
    assert (OD : ok (Rabs d)) by (unfold Rabs; destruct (Rcase_abs d); auto).
    destruct (HS (Rabs d) (Rabs_pos d) OD) as [pk S1]. destruct (HS s Hs Hok) as [pks S2].
    pose proof (divergence_unique _ _ _ _ _ HD (divergence_peak _ _ _ _ (add_peaked F s pks q eps S2 Hq))) as ->.
    remember (peak_add q (Rabs d) pk eps) as p eqn:Ep. pose proof (add_peaked F (Rabs d) pk q eps S1 Hq) as PK. rewrite <- Ep in PK.
    pose proof (exp_pos eps) as EP.
    assert (LE : hend (gap F (add_lower F q (Rabs d)) (exp eps)) (1 - exp eps) p <=
                 hend (gap F (add_lower F q s) (exp eps)) (1 - exp eps) (peak_add q s pks eps)).
    { eapply Rle_trans; [|apply (peaked_best _ _ _ (add_peaked F s pks q eps S2 Hq) p), (proj1 PK)].
      apply hend_mono. intros a. unfold gap, add_lower, sampled. destruct HF as (_ & M & _).
      pose proof (M (a - s) (a - Rabs d) ltac:(lra)). assert (0 <= exp eps * q) by nra. nra. }
    intros cuts HC. eapply Rle_trans; [|exact LE]. destruct (Rle_dec 0 d) as [Hn|Hp].
    - rewrite Rabs_right in * by lra.
      assert (G : gains_at_most (hend (gap (add_noise F v) (sampled q (add_noise F v) (add_noise F (v + d))) (exp eps)) (1 - exp eps))
                   (hend (gap F (add_lower F q d) (exp eps)) (1 - exp eps) p)).
      { apply (gains_shift _ _ _ p v). { rewrite Ep. apply (add_uni F d pk q eps S1 Hq). }
        - intros x. unfold gap, add_lower, sampled, add_noise. replace (x - (v + d)) with (x - v - d) by lra. reflexivity.
        - intros pp. apply uni_peaked; [apply (cdf_shift F (- v)), HF | | left; apply exp_pos].
          apply cdf_sampled; [lra | apply (cdf_shift F (- v)), HF | apply (cdf_shift F (- (v + d))), HF].
        - eauto. }
      apply G, HC.
    - rewrite Rabs_left in * by lra.
      assert (U2 : uni (fun x => gap F (add_lower F q (- d)) (exp eps) (x + v)) (xadd p (Fin (- v)))) by (rewrite Ep; apply uni_shift, add_uni; assumption).
      assert (PK2 : peaked (gap (fun x => F (x + v)) (fun x => add_lower F q (- d) (x + v)) (exp eps)) (1 - exp eps) (xadd p (Fin (- v)))).
      { apply uni_peaked; [apply cdf_shift, HF | apply (cdf_shift (add_lower F q (- d))), cdf_add; [lra | exact HF] | left; apply exp_pos | exact U2]. }
      replace (hend (gap F (add_lower F q (- d)) (exp eps)) (1 - exp eps) p)
        with (hend (gap (fun x => F (x + v)) (fun x => add_lower F q (- d) (x + v)) (exp eps)) (1 - exp eps) (xadd p (Fin (- v)))).
      2: { clear. destruct p; cbn; try reflexivity. unfold gap. replace (r + - v + v) with r by lra. reflexivity. }
      eapply (peaked_gains_mirror _ _ _ _ (1 - exp eps) (xrefl r) PK2 (xrefl_antitone r Rm)); [|exact HC].
      intros x Nx. destruct x as [a| | |]; cbn [hend xrefl]; [|lra|lra|congruence].
      unfold gap, add_lower, sampled, add_noise.
      rewrite (Rf (a - v)), (Rf (a - (v + d))). rewrite (Rv a v Ov), (Rv a (v + d) (Op v d Ov Od)).
      replace (r a + (v + d)) with (r a + v - - d) by lra. ring.
  Qed.

  (** every observation of a noisy query is bounded by the two divergences *)
  Lemma noisy_query_bounded E eps dr da : noisy_query ok F q s E ->
    divergence_is (remove_upper F q s) F eps dr -> divergence_is F (add_lower F q s) eps da ->
    valid E /\ dp E eps dr /\ dp (swap E) eps da.
  Proof.
    intros (v & d & cuts & Ov & Od & Hd & HC & ->) D1 D2. split; [|split].
    - apply observe_valid; [| |assumption].
      + apply cdf_sampled; [lra | apply (cdf_shift F (- v)), HF | apply (cdf_shift F (- (v + d))), HF].
      + apply (cdf_shift F (- v)), HF.
    - apply dp_iff_hockey. rewrite observe_gap. apply (remove_gains eps dr v d D1 Ov Od Hd cuts HC).
    - apply dp_iff_hockey. rewrite swap_observe, observe_gap. apply (add_gains eps da v d D2 Ov Od Hd cuts HC).
  Qed.
End Neighbours.
