(** Interactions of Gaussian queries are dominated by a single Gaussian query. *)
From Coq Require Import FunctionalExtensionality.
From Verif Require Import Base XReal TypesAdjacency SpecDP SpecMech SpecPld SpecNoiseAcc ProofDP ProofShape ProofShapeGauss ProofPeak ProofCuts ProofNormal ProofGdpConv ProofGdp ProofRefine ProofGaussRdp ProofRdpAtom ProofAccSound.
Local Open Scope R_scope.
Local Arguments Rltb : simpl never.
Local Arguments Rleb : simpl never.
Local Arguments Reqb : simpl never.

Lemma rsum_swap {A B} (f : A -> B -> R) l k : rsum (fun x => rsum (f x) k) l = rsum (fun y => rsum (fun x => f x y) l) k.
Proof.
  induction l as [|x l IH]; cbn [rsum].
  - symmetry. apply rsum_zero. intros; reflexivity.
  - rewrite IH, <- rsum_plus. apply rsum_ext. intros; reflexivity.
Qed.
Lemma peaked_gains_along H lim p (h : xr -> R) r : peaked H lim p ->
  (forall x y, xleb x y = true -> xleb (r x) (r y) = true) -> r PInf = PInf -> r MInf = MInf ->
  (forall x, x <> NaN -> h x = hend H lim (r x)) -> gains_at_most h (hend H lim p).
Proof.
  intros HP HR R1 R2 Hh. apply (gains_by _ (fun x => hend H lim (cap p (r x)))).
  - intros x y L. destruct (xleb_nan _ _ L) as [Nx Ny]. rewrite !Hh by assumption. apply (peaked_pos H lim p HP _ _ (HR _ _ L)).
  - rewrite R1, R2. destruct (cap_ends p (proj1 HP)) as [-> ->]. cbn. lra.
Qed.

Section Seq.
  Context (Phi : R -> R) (HPhi : normal_cdf Phi).
  Notation test := (test Phi).

  Definition gdom (mu : R) (E : exper) : Prop :=
    valid E /\ forall a b, 0 < a -> 0 < b -> hs E a b <= test mu a b (thr mu a b).
  Lemma phi_strict x y : x < y -> Phi x < Phi y.
  Proof.
    intros L. destruct HPhi as (_ & c & Hc & D). destruct (MVT_cor2 Phi (fun x => c * exp (- (x * x) / 2)) x y L ltac:(intros; apply D)) as (z & E & _).
    assert (0 < c * exp (- (z * z) / 2) * (y - x)); [|lra]. apply Rmult_lt_0_compat; [apply Rmult_lt_0_compat; [assumption | apply exp_pos] | lra].
  Qed.
  Lemma phi_open x : 0 < Phi x < 1.
  Proof. pose proof (phi_strict (x - 1) x ltac:(lra)). pose proof (phi_strict x (x + 1) ltac:(lra)). pose proof (phi_range Phi HPhi (x - 1)). pose proof (phi_range Phi HPhi (x + 1)). lra. Qed.
  Lemma best mu a b t : 0 < mu -> 0 < a -> 0 < b -> test mu a b t <= test mu a b (thr mu a b).
  Proof. destruct HPhi as (_ & c & Hc & D). apply (test_best Phi c Hc D). Qed.
  Lemma peak mu a b : 0 < mu -> 0 < a -> 0 < b -> peaked (test mu a b) (a - b) (Fin (thr mu a b)).
  Proof. pose proof HPhi as (_ & c & Hc & D). apply (test_peaked Phi HPhi c Hc D). Qed.
  Lemma test_widen mu mu' a b : 0 < mu -> mu <= mu' -> 0 < a -> 0 < b -> test mu a b (thr mu a b) <= test mu' a b (thr mu' a b).
  Proof.
    intros H L Ha Hb. apply Rle_trans with (test mu' a b (thr mu a b)); [|apply best; lra].
    unfold ProofGdp.test. assert (a * Phi (thr mu a b + mu) <= a * Phi (thr mu a b + mu')); [|lra]. apply Rmult_le_compat_l; [lra|]. apply (phi_mono Phi HPhi). lra.
  Qed.
  Lemma gdom_mono mu mu' E : 0 < mu -> mu <= mu' -> gdom mu E -> gdom mu' E.
  Proof. intros H L (V & G). split; [exact V|]. intros a b Ha Hb. eapply Rle_trans; [apply G; assumption | apply test_widen; assumption]. Qed.
  Lemma iso_hs E F a b : iso E F -> hs E a b = hs F a b.
  Proof. intros (g & G1 & G2 & G3). unfold hs. rewrite G1, rsum_map_eq. apply rsum_ext. intros o _. rewrite G2, G3. reflexivity. Qed.
  Lemma gdom_iso mu E F : iso E F -> gdom mu F -> gdom mu E.
  Proof. intros I (V & G). split; [eapply iso_valid; eassumption|]. intros a b Ha Hb. rewrite (iso_hs _ _ _ _ I). apply G; assumption. Qed.

  (** A cut at the threshold sees what the half line gains. *)
  Lemma from_cut (h : xr -> R) t l : In t l -> forall x0, h (Fin t) - h x0 <= rsum (fun cell => pos (h (snd cell) - h (fst cell))) (cells_at x0 l).
  Proof.
    induction l as [|x l IH]; [intros []|]. intros I x0. cbn [cells_at rsum fst snd].
    assert (P : forall y, y <= pos y) by (intros y; unfold pos; apply Rmax_r).
    assert (N : 0 <= rsum (fun cell => pos (h (snd cell) - h (fst cell))) (cells_at (Fin x) l)) by (apply rsum_nonneg; intros; apply pos_nonneg).
    pose proof (P (h (Fin x) - h x0)). destruct I as [->|I]; [lra|]. specialize (IH I (Fin x)). lra.
  Qed.
  Definition pair_at (mu : R) (cuts : list R) : exper := observe (fun x => Phi (x + mu)) Phi cuts.
  Lemma sees mu a b t cuts : In t cuts -> test mu a b t <= hs (pair_at mu cuts) a b.
  Proof.
    intros I. pose proof (from_cut (fun x => a * at_end (fun x => Phi (x + mu)) x - b * at_end Phi x) t cuts I MInf) as B.
    rewrite <- cells_at_eq in B. cbn [at_end] in B. unfold hs, pair_at. cbn [outs prP prQ observe].
    erewrite rsum_ext; [unfold ProofGdp.test; eapply Rle_trans; [|exact B]; lra|]. intros cell _. cbn beta. f_equal. ring.
  Qed.
  Lemma pair_valid mu cuts : StronglySorted Rlt cuts -> valid (pair_at mu cuts).
  Proof.
    intros S. pose proof HPhi as (C & _). apply observe_valid; try assumption. destruct C as (B & M & Lo & Up). split; [intros; apply B|]. split; [intros; apply M; lra|]. split.
    - intros e He. destruct (Lo e He) as [x Hx]. exists (x - mu). replace (x - mu + mu) with x by ring. exact Hx.
    - intros e He. destruct (Up e He) as [x Hx]. exists (x - mu). replace (x - mu + mu) with x by ring. exact Hx.
  Qed.
  Lemma cells_strict cuts : StronglySorted Rlt cuts -> forall cell, In cell (cells cuts) -> xltb (fst cell) (snd cell) = true.
  Proof.
    rewrite cells_at_eq. assert (G : forall l x0, StronglySorted Rlt l -> (x0 = MInf \/ exists x, x0 = Fin x /\ Forall (Rlt x) l) -> forall cell, In cell (cells_at x0 l) -> xltb (fst cell) (snd cell) = true).
    { induction l as [|x l IH]; intros x0 S H cell I.
      - destruct I as [<-|[]]. destruct H as [->|(x & -> & _)]; reflexivity.
      - apply StronglySorted_inv in S. destruct S as [S F]. destruct I as [<-|I].
        + destruct H as [->|(y & -> & Fy)]; [reflexivity|]. inversion Fy; subst. cbn. apply Rltb_true. assumption.
        + apply (IH (Fin x) S); [right; exists x; auto | exact I]. }
    intros S. apply G; [assumption | left; reflexivity].
  Qed.
  Lemma cell_pos mu cuts cell : StronglySorted Rlt cuts -> In cell (cells cuts) -> 0 < prP (pair_at mu cuts) cell /\ 0 < prQ (pair_at mu cuts) cell.
  Proof.
    intros S I. pose proof (cells_strict cuts S cell I) as L. destruct (cell_ends cuts cell I) as [EF ES]. destruct cell as [l w]. cbn [fst snd pair_at observe prP prQ] in *.
    destruct EF as [->|(p & _ & ->)], ES as [->|(q & _ & ->)]; cbn [at_end].
    - lra.
    - pose proof (phi_open (q + mu)). pose proof (phi_open q). lra.
    - pose proof (phi_open (p + mu)). pose proof (phi_open p). lra.
    - cbn in L. destruct (Rltb_spec p q) as [H|]; [|discriminate]. pose proof (phi_strict p q H). pose proof (phi_strict (p + mu) (q + mu) ltac:(lra)). lra.
  Qed.

  Lemma gdom_seq m1 m2 E1 E2 : 0 < m1 -> 0 < m2 -> gdom m1 E1 -> (forall o, In o (outs E1) -> gdom m2 (E2 o)) ->
    gdom (sqrt (m1 * m1 + m2 * m2)) (seq_exper E1 E2).
  Proof.
    intros H1 H2 (V1 & G1) G2. split; [apply valid_seq; [exact V1 | intros o Ho; apply G2, Ho]|]. intros a b Ha Hb.
    rewrite hs_seq. set (cuts := ins_all (map (fun o => thr m2 (a * prP E1 o) (b * prQ E1 o)) (outs E1)) []).
    assert (SC : StronglySorted Rlt cuts) by (apply ins_all_sorted; constructor).
    pose proof V1 as (N1 & _). pose proof (pair_valid m2 cuts SC) as V2.
    apply Rle_trans with (rsum (fun o => hs (pair_at m2 cuts) (a * prP E1 o) (b * prQ E1 o)) (outs E1)).
    - apply rsum_le. intros o Ho. destruct (N1 o Ho) as [NP NQ]. destruct (G2 o Ho) as [Vo Go].
      destruct (Rle_lt_or_eq_dec _ _ NP) as [PP|PP]; [|rewrite <- PP, Rmult_0_r, !hs_a0 by (try assumption; nra); lra].
      destruct (Rle_lt_or_eq_dec _ _ NQ) as [PQ|PQ]; [|rewrite <- PQ, Rmult_0_r, !hs_b0 by (try assumption; nra); lra].
      eapply Rle_trans; [apply Go; apply Rmult_lt_0_compat; assumption|]. apply sees. apply ins_all_In. left. apply in_map_iff. exists o. auto.
    - apply Rle_trans with (rsum (fun cell => test m1 (a * prP (pair_at m2 cuts) cell) (b * prQ (pair_at m2 cuts) cell) (thr m1 (a * prP (pair_at m2 cuts) cell) (b * prQ (pair_at m2 cuts) cell))) (cells cuts)).
      + unfold hs at 1. rewrite rsum_swap. apply rsum_le. intros cell Ic. destruct (cell_pos m2 cuts cell SC Ic) as [PP PQ].
        eapply Rle_trans; [|apply G1; apply Rmult_lt_0_compat; assumption]. right. unfold hs. apply rsum_ext. intros o _. f_equal. ring.
      + rewrite Rplus_comm. pose proof HPhi as (_ & c & Hc & D).
        apply (step_sum Phi HPhi c Hc D m2 m1 a b H2 H1 Ha Hb cuts (fun cell => thr m1 (a * prP (pair_at m2 cuts) cell) (b * prQ (pair_at m2 cuts) cell)) SC).
  Qed.

  (** ** A single query *)
  Lemma test_nonneg mu a b : 0 < mu -> 0 < a -> 0 < b -> 0 <= test mu a b (thr mu a b) /\ a - b <= test mu a b (thr mu a b).
  Proof.
    intros Hm Ha Hb. pose proof (peak mu a b Hm Ha Hb) as P.
    pose proof (peaked_best _ _ _ P MInf ltac:(discriminate)). pose proof (peaked_best _ _ _ P PInf ltac:(discriminate)). cbn [hend] in *. lra.
  Qed.
  Lemma query_hs w v d mu a b cuts : 0 < w -> Rabs d / w <= mu -> 0 < mu -> 0 < a -> 0 < b -> StronglySorted Rlt cuts ->
    hs (observe (fun x => Phi ((x - (v + d)) / w)) (fun x => Phi ((x - v) / w)) cuts) a b <= test mu a b (thr mu a b).
  Proof.
    intros Hw Hd Hm Ha Hb SC.
    set (P := fun x => Phi ((x - (v + d)) / w)). set (Q := fun x => Phi ((x - v) / w)).
    assert (EQ : hs (observe P Q cuts) a b = rsum (fun cell => pos ((fun x => a * at_end P x - b * at_end Q x) (snd cell) - (fun x => a * at_end P x - b * at_end Q x) (fst cell))) (cells cuts)).
    { unfold hs. cbn [outs prP prQ observe]. apply rsum_ext. intros cell _. cbn beta. f_equal. ring. }
    rewrite EQ. clear EQ. destruct (Rtotal_order d 0) as [Ld|[->|Ld]].
    - rewrite Rabs_left in Hd by exact Ld. set (m := - d / w) in *. assert (0 < m) by (apply Rdiv_lt_0_compat; lra).
      eapply Rle_trans; [|apply (test_widen m mu a b); assumption].
      set (r := fun x : xr => match x with Fin x => Fin ((x - v) / w) | y => y end).
      apply (peaked_gains_along (test m a b) (a - b) (Fin (thr m a b)) (fun x => a * at_end P x - b * at_end Q x) r (peak m a b H Ha Hb)); try reflexivity; [| |exact SC].
      + intros [x| | |] [y| | |] L; try discriminate; try reflexivity. apply xleb_fin in L. apply xleb_fin.
        apply Rmult_le_compat_r; [left; apply Rinv_0_lt_compat, Hw | lra].
      + intros [x| | |] N; cbn; try lra. unfold ProofGdp.test, P, Q. replace ((x - v) / w + m) with ((x - (v + d)) / w) by (unfold m; field; lra). reflexivity.
    - destruct (test_nonneg mu a b Hm Ha Hb) as [T1 T2]. unfold P, Q. rewrite Rplus_0_r. fold Q.
      assert (O : forall cell, In cell (cells cuts) -> at_end Q (fst cell) <= at_end Q (snd cell)).
      { intros cell I. apply at_end_mono; [|apply (cells_ordered cuts SC cell I)]. apply (scaled_cdf Phi w v Hw); apply HPhi. }
      apply Rle_trans with (rsum (fun cell => pos (a - b) * (at_end Q (snd cell) - at_end Q (fst cell))) (cells cuts)).
      + apply rsum_le. intros cell I. specialize (O cell I). cbn beta. unfold pos. pose proof (Rmax_l 0 (a - b)). pose proof (Rmax_r 0 (a - b)).
        apply Rmax_lub; nra.
      + rewrite rsum_scal, (cells_telescope (at_end Q)). cbn [at_end]. unfold pos. rewrite Rminus_0_r, Rmult_1_r. apply Rmax_lub; assumption.
    - rewrite Rabs_pos_eq in Hd by lra. set (m := d / w) in *. assert (0 < m) by (apply Rdiv_lt_0_compat; lra).
      eapply Rle_trans; [|apply (test_widen m mu a b); assumption].
      set (r := fun x : xr => match x with Fin x => Fin (- ((x - v) / w)) | PInf => MInf | MInf => PInf | NaN => NaN end).
      apply (peaked_gains_mirror (test m a b) (a - b) (Fin (thr m a b)) (fun x => a * at_end P x - b * at_end Q x) (a - b) r (peak m a b H Ha Hb)); [| |exact SC].
      + split; [|split; reflexivity]. intros [x| | |] [y| | |] L; try discriminate; try reflexivity. apply xleb_fin in L. apply xleb_fin.
        apply Ropp_le_contravar. apply Rmult_le_compat_r; [left; apply Rinv_0_lt_compat, Hw | lra].
      + intros [x| | |] N; cbn; try lra; [|congruence]. unfold ProofGdp.test, P, Q. rewrite (normal_mirror Phi HPhi ((x - v) / w)).
        replace (- ((x - v) / w) + m) with (- ((x - (v + d)) / w)) by (unfold m; field; lra). rewrite (normal_mirror Phi HPhi ((x - (v + d)) / w)). ring.
  Qed.
  Lemma query_gdom sigma E : 0 < sigma -> scaled_query (normal_law Phi sigma) 1 E -> gdom (1 / sigma) E /\ gdom (1 / sigma) (swap E).
  Proof.
    intros Hs HE. destruct (scaled_form _ _ (normal_law_cdf Phi HPhi sigma Hs) HE) as (s & v & d & cuts & Hs0 & Hd & HS & E1 & E2 & V).
    assert (F : forall u, (fun x => normal_law Phi sigma ((x - u) / s)) = (fun x => Phi ((x - u) / (s * sigma)))).
    { intros u. apply functional_extensionality. intros x. unfold normal_law. f_equal. field. lra. }
    rewrite !F in *. assert (Hw : 0 < s * sigma) by (apply Rmult_lt_0_compat; assumption).
    assert (M : Rabs d / (s * sigma) <= 1 / sigma).
    { replace (1 / sigma) with (s / (s * sigma)) by (field; lra). apply Rmult_le_compat_r; [left; apply Rinv_0_lt_compat, Hw | assumption]. }
    assert (0 < 1 / sigma) by (apply Rdiv_lt_0_compat; lra). split; split; try (apply valid_swap); try exact V; intros a b Ha Hb.
    - rewrite E1. apply query_hs; assumption.
    - rewrite E2. replace (fun x => Phi ((x - v) / (s * sigma))) with (fun x => Phi ((x - ((v + d) + - d)) / (s * sigma))).
      + apply query_hs; try assumption. rewrite Rabs_Ropp. assumption.
      + apply functional_extensionality. intros x. f_equal. f_equal. ring.
  Qed.

  (** ** Interactions *)
  Definition gclass (m : R) (C : exper -> Prop) : Prop := 0 < m /\ forall F, C F -> gdom m F /\ gdom m (swap F).
  Definition squares (ms : list R) : R := rsum (fun m => m * m) ms.
  Lemma squares_nonneg ms : 0 <= squares ms.
  Proof. apply rsum_nonneg. intros; nra. Qed.
  Lemma gdom_interaction Cs E : interaction Cs E -> forall ms, Forall2 gclass ms Cs -> Cs <> [] ->
    gdom (sqrt (squares ms)) E /\ gdom (sqrt (squares ms)) (swap E).
  Proof.
    induction 1 as [|Cs E C E' HI IH HC]; intros ms F N; [congruence|].
    apply Forall2_app_inv_r in F. destruct F as (m1 & m2 & F1 & F2 & ->). inversion F2 as [|m ? ? ? [Hm G] F3]; subst. inversion F3; subst.
    destruct Cs as [|C0 Cs].
    - inversion F1; subst. cbn [app]. unfold squares. cbn [rsum]. rewrite Rplus_0_r, sqrt_square by lra.
      assert (HI' : interaction [C] (seq_exper E E')) by (apply (inter_snoc [] E C E' HI HC)).
      destruct (interaction_one _ _ HI') as (F & HF & I). destruct (G F HF) as [G1 G2]. split; [eapply gdom_iso; eassumption | eapply gdom_iso; [apply iso_swap; exact I | exact G2]].
    - assert (Q : 0 < squares m1).
      { inversion F1 as [|m0 ? l1 ? [Hm0 _] F4]; subst. unfold squares. cbn [rsum]. pose proof (squares_nonneg l1). unfold squares in *. nra. }
      destruct (IH m1 F1 ltac:(discriminate)) as [I1 I2]. pose proof (sqrt_lt_R0 _ Q) as Q'.
      assert (EQ : squares (m1 ++ [m]) = sqrt (squares m1) * sqrt (squares m1) + m * m) by (rewrite sqrt_sqrt by lra; unfold squares; rewrite rsum_app; cbn [rsum]; ring).
      rewrite EQ. rewrite swap_seq. split; apply gdom_seq; try assumption; intros o Ho; apply (G _ (HC o Ho)).
  Qed.

  (** ** The single query that dominates *)
  Lemma half_line P Q t a b : a * P t - b * Q t <= hs (observe P Q [t]) a b.
  Proof.
    unfold hs. cbn [outs prP prQ observe]. unfold cells. cbn [map app combine rsum fst snd at_end].
    pose proof (pos_nonneg (a * (1 - P t) - b * (1 - Q t))). assert (a * (P t - 0) - b * (Q t - 0) <= pos (a * (P t - 0) - b * (Q t - 0))) by (unfold pos; apply Rmax_r). lra.
  Qed.
  Lemma bounds_query sigma D E : 0 < sigma -> gdom (1 / sigma) E -> gdom (1 / sigma) (swap E) ->
    (forall F, scaled_query (normal_law Phi sigma) 1 F -> pld_bounds D F) -> pld_bounds D E.
  Proof.
    intros Hs (V & G1) (_ & G2) B. assert (Hm : 0 < 1 / sigma) by (apply Rdiv_lt_0_compat; lra). split; [exact V|].
    assert (Q : forall d t, Rabs d <= 1 -> scaled_query (normal_law Phi sigma) 1 (observe (sampled 1 (add_noise (fun x => normal_law Phi sigma (x / 1)) 0) (add_noise (fun x => normal_law Phi sigma (x / 1)) (0 + d))) (add_noise (fun x => normal_law Phi sigma (x / 1)) 0) [t])).
    { intros d t Hd. exists 1. split; [lra|]. exists 0, d, [t]. repeat split; try assumption. repeat constructor. }
    split; intros eps; apply dp_iff_hockey; rewrite hockey_hs.
    - pose proof (exp_pos eps) as Pe. eapply Rle_trans; [apply G1; [lra | exact Pe]|]. set (t := thr (1 / sigma) 1 (exp eps)).
      destruct (B _ (Q (-1) (t * sigma) ltac:(rewrite Rabs_left; lra))) as (_ & B1 & _). specialize (B1 eps). apply dp_iff_hockey in B1. rewrite hockey_hs in B1.
      eapply Rle_trans; [|exact B1]. eapply Rle_trans; [|apply half_line]. unfold ProofGdp.test, sampled, add_noise, normal_law.
      replace ((t * sigma - (0 + -1)) / 1 / sigma) with (t + 1 / sigma) by (field; lra). replace ((t * sigma - 0) / 1 / sigma) with t by (field; lra). lra.
    - pose proof (exp_pos eps) as Pe. eapply Rle_trans; [apply G2; [lra | exact Pe]|]. set (t := thr (1 / sigma) 1 (exp eps)).
      destruct (B _ (Q 1 ((t + 1 / sigma) * sigma) ltac:(rewrite Rabs_pos_eq; lra))) as (_ & _ & B1). specialize (B1 eps). apply dp_iff_hockey in B1. rewrite hockey_hs, swap_observe in B1.
      eapply Rle_trans; [|exact B1]. eapply Rle_trans; [|apply half_line]. unfold ProofGdp.test, sampled, add_noise, normal_law.
      replace (((t + 1 / sigma) * sigma - (0 + 1)) / 1 / sigma) with t by (field; lra). replace (((t + 1 / sigma) * sigma - 0) / 1 / sigma) with (t + 1 / sigma) by (field; lra). lra.
  Qed.
  Lemma gaussian_interaction sigma n E : 0 < sigma -> (0 < n)%nat ->
    interaction (repeat (scaled_query (normal_law Phi sigma) 1) n) E ->
    gdom (1 / (sigma / sqrt (INR n))) E /\ gdom (1 / (sigma / sqrt (INR n))) (swap E).
  Proof.
    intros Hs Hn HE.
    assert (F : Forall2 gclass (repeat (1 / sigma) n) (repeat (scaled_query (normal_law Phi sigma) 1) n)).
    { clear -Hs HPhi. induction n; cbn; constructor; [|exact IHn]. split; [apply Rdiv_lt_0_compat; lra|]. intros F HF. apply query_gdom; assumption. }
    assert (Pn : 0 < sqrt (INR n)) by (apply sqrt_lt_R0; apply lt_0_INR; exact Hn).
    assert (EQ : sqrt (squares (repeat (1 / sigma) n)) = 1 / (sigma / sqrt (INR n))).
    { apply sqrt_lem_1; [apply squares_nonneg | left; apply Rdiv_lt_0_compat; [lra | apply Rdiv_lt_0_compat; assumption]|].
      replace (1 / (sigma / sqrt (INR n)) * (1 / (sigma / sqrt (INR n)))) with (sqrt (INR n) * sqrt (INR n) / (sigma * sigma)) by (field; lra). rewrite sqrt_sqrt by apply pos_INR.
      clear -Hs. unfold squares. induction n as [|n IH]; [cbn; field; lra|]. rewrite S_INR. cbn [repeat rsum]. rewrite <- IH. field. lra. }
    rewrite <- EQ. apply (gdom_interaction _ _ HE _ F). destruct n; [lia | discriminate].
  Qed.
End Seq.
