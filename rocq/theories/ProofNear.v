(** Shifts and slacks add up under adaptive composition. *)
From Verif Require Import Base XReal Exn ModelCommon ModelPmf ModelPld SpecDP SpecPmf SpecPld SpecNear
  ProofDP ProofPmf ProofCompose ProofCompose2 ProofQuery ProofPld ProofPldApi ProofSelf ProofSelfDP.

Definition near (inf : R) (l : list (R * R)) (t r : R) (E : exper) : Prop :=
  forall a b, 0 <= a -> 0 <= b -> curve inf l a b <= hs E a (b * t) + r * a.

Lemma near_complete inf l t r E : okl l -> 0 <= inf -> inf + rsum snd l <= 1 -> 0 < t <= 1 -> 0 <= r ->
  valid E -> near inf l t r E ->
  exists l', okl l' /\ inf + rsum snd l' = 1 /\
    (forall E', valid E' -> near inf l t r E' -> near inf l' t r E') /\
    (forall g : R * R -> R, (forall x, 0 <= snd x -> 0 <= g x) -> rsum g l <= rsum g l').
Proof.
  intros Ol I T Ht Hr _ _. destruct (Req_dec (inf + rsum snd l) 1) as [EQ|NE].
  - exists l. repeat split; auto; try apply Ol; auto. intros; lra.
  - set (m := 1 - inf - rsum snd l). assert (Hm : 0 < m) by (unfold m; lra).
    exists ((1 / m, m) :: l). split; [|split; [|split]].
    + intros x [<-|Hx]; [cbn; split; [apply Rdiv_lt_0_compat; lra | lra] | apply Ol; assumption].
    + cbn [rsum snd]. unfold m. lra.
    + intros E' V N a b Ha Hb. unfold curve. cbn [rsum fst snd].
      specialize (N a b Ha Hb). unfold curve in N.
      destruct (Rle_lt_dec (a - b * (1 / m)) 0) as [L|G].
      * rewrite pos_0 by assumption. lra.
      * rewrite pos_eq by lra.
        pose proof (curve_le_total inf l a b Ol Ha Hb) as C. unfold curve in C.
        pose proof (hs_ge E' a (b * t) V) as HG.
        assert (X : m * (a - b * (1 / m)) = m * a - b) by (field; lra). rewrite X.
        assert (b * t <= b) by nra. assert (0 <= r * a) by (apply Rmult_le_pos; assumption).
        unfold m. nra.
    + intros g Hg. cbn [rsum]. specialize (Hg (1 / m, m)). cbn in Hg. lra.
Qed.

Lemma near_full inf1 l1 t1 r1 inf2 l2 t2 r2 E1 E2 :
  okl l1 -> okl l2 -> 0 <= inf2 -> inf2 + rsum snd l2 = 1 -> 0 <= r1 -> 0 < t1 ->
  valid E1 -> near inf1 l1 t1 r1 E1 ->
  (forall o, In o (outs E1) -> near inf2 l2 t2 r2 (E2 o)) ->
  forall a b, 0 <= a -> 0 <= b ->
  (inf1 + inf2 - inf1 * inf2) * a + rsum (fun x => rsum (fun y => snd x * snd y * pos (a - b * (fst x * fst y))) l2) l1
   <= hs (seq_exper E1 E2) a (b * (t1 * t2)) + (r1 + r2) * a.
Proof.
  intros O1 O2 I2 T2 Hr1 Ht1 V1 N1 N2 a b Ha Hb. pose proof V1 as (NN & HP & HQ).
  rewrite hs_seq.
  assert (A : rsum (fun o => curve inf2 l2 (a * prP E1 o) (b * t1 * prQ E1 o)) (outs E1) - r2 * a <=
    rsum (fun o => hs (E2 o) (a * prP E1 o) (b * (t1 * t2) * prQ E1 o)) (outs E1)).
  { replace (r2 * a) with (rsum (fun o => r2 * a * prP E1 o) (outs E1)) by (rewrite rsum_scal, HP; lra).
    rewrite <- rsum_minus. apply rsum_le. intros o Ho. destruct (NN o Ho) as [p0 q0].
    assert (X : 0 <= a * prP E1 o) by (apply Rmult_le_pos; assumption).
    assert (Y : 0 <= b * t1 * prQ E1 o) by (repeat apply Rmult_le_pos; lra).
    pose proof (N2 o Ho _ _ X Y) as Z.
    replace (b * (t1 * t2) * prQ E1 o) with (b * t1 * prQ E1 o * t2) by ring. lra. }
  assert (B : rsum (fun o => curve inf2 l2 (a * prP E1 o) (b * t1 * prQ E1 o)) (outs E1) =
    inf2 * a + rsum (fun y => snd y * hs E1 a (b * fst y * t1)) l2).
  { unfold curve. rewrite rsum_plus. f_equal.
    - rewrite (rsum_ext _ (fun o => inf2 * a * prP E1 o)) by (intros; ring). rewrite rsum_scal, HP. lra.
    - rewrite rsum_swap. apply rsum_ext. intros y _. rewrite rsum_scal. f_equal. unfold hs.
      apply rsum_ext. intros o _. f_equal. ring. }
  assert (C : rsum (fun y => snd y * (curve inf1 l1 a (b * fst y) - r1 * a)) l2 <=
     rsum (fun y => snd y * hs E1 a (b * fst y * t1)) l2).
  { apply rsum_le. intros y Hy. destruct (O2 y Hy) as [y0 y1]. apply Rmult_le_compat_l; [assumption|].
    assert (Y : 0 <= b * fst y) by (apply Rmult_le_pos; lra).
    pose proof (N1 a (b * fst y) Ha Y). lra. }
  assert (D : rsum (fun y => snd y * (curve inf1 l1 a (b * fst y) - r1 * a)) l2 =
    rsum snd l2 * (inf1 - r1) * a + rsum (fun x => rsum (fun y => snd x * snd y * pos (a - b * (fst x * fst y))) l2) l1).
  { rewrite (rsum_ext _ (fun y => (inf1 - r1) * a * snd y +
       rsum (fun x => snd x * snd y * pos (a - b * (fst x * fst y))) l1)).
    - rewrite rsum_plus. f_equal; [rewrite rsum_scal; lra | apply rsum_swap].
    - intros y _. unfold curve.
      rewrite (rsum_ext (fun x => snd x * snd y * pos (a - b * (fst x * fst y)))
         (fun x => snd y * (snd x * pos (a - b * fst y * fst x)))).
      + rewrite rsum_scal. lra.
      + intros x _. replace (b * (fst x * fst y)) with (b * fst y * fst x) by ring. ring. }
  assert (M : rsum snd l2 = 1 - inf2) by lra. rewrite M in D.
  assert (0 <= inf2 * r1 * a) by (repeat apply Rmult_le_pos; assumption).
  nra.
Qed.

Lemma near_compose inf1 l1 t1 r1 inf2 l2 t2 r2 E1 E2 :
  okl l1 -> okl l2 -> 0 <= inf2 -> inf2 + rsum snd l2 <= 1 -> 0 <= r1 -> 0 <= r2 -> 0 < t1 -> 0 < t2 <= 1 ->
  valid E1 -> near inf1 l1 t1 r1 E1 ->
  (forall o, In o (outs E1) -> valid (E2 o) /\ near inf2 l2 t2 r2 (E2 o)) ->
  near (inf1 + inf2 - inf1 * inf2) (prodl l1 l2) (t1 * t2) (r1 + r2) (seq_exper E1 E2).
Proof.
  intros O1 O2 I2 T2 Hr1 Hr2 Ht1 Ht2 V1 N1 N2 a b Ha Hb.
  destruct (outs E1) as [|o0 os] eqn:EO.
  { exfalso. destruct V1 as (_ & HP & _). rewrite EO in HP. cbn in HP. lra. }
  destruct (N2 o0 (or_introl eq_refl)) as [V0 N0]. rewrite <- EO in N2.
  destruct (near_complete inf2 l2 t2 r2 (E2 o0) O2 I2 T2 Ht2 Hr2 V0 N0) as (l' & O' & T' & X & Y).
  assert (N2' : forall o, In o (outs E1) -> near inf2 l' t2 r2 (E2 o))
    by (intros o Ho; destruct (N2 o Ho); apply X; assumption).
  eapply Rle_trans; [|exact (near_full inf1 l1 t1 r1 inf2 l' t2 r2 E1 E2 O1 O' I2 T' Hr1 Ht1 V1 N1 N2' a b Ha Hb)].
  unfold curve. rewrite rsum_prodl. cbn [fst snd]. apply Rplus_le_compat_l.
  apply rsum_le. intros x Hx. destruct (O1 x Hx). apply Y. intros y Hy.
  apply Rmult_le_pos; [apply Rmult_le_pos; assumption | apply pos_nonneg].
Qed.

(** ** pmfs *)
Definition pmf_near (c r : R) (p : pmf) (E : exper) : Prop :=
  forall eps, pmf_delta p (Fin eps) <= hockey_stick E (eps - c) + r.

Lemma sub_total p : subproper p <-> wf p /\ total p <= 1.
Proof.
  split; intros [W H]; (split; [assumption|]).
  - unfold total. rewrite (psum_covers p (support p)) by (auto; apply support_covers; assumption).
    eapply Rle_trans; [|exact (H (support p) (support_covers p W))]. right. f_equal. apply rsum_ext; intros; lra.
  - intros ks C. eapply Rle_trans; [|exact H]. unfold total.
    rewrite (psum_covers p ks) by auto. right. f_equal. apply rsum_ext; intros; lra.
Qed.

Lemma rms_total p : wf p -> rsum snd (rms p) = psum p (fun _ => 1).
Proof.
  intros W. unfold rms. rewrite rsum_map. cbn [fst snd]. rewrite <- psum_losses by assumption.
  apply rsum_ext. intros; lra.
Qed.

Lemma near_pmf c r p E : subproper p -> 0 <= r -> valid E ->
  (pmf_near c r p E <-> near (infinity_mass p) (rms p) (exp (- c)) r E).
Proof.
  intros S Hr V. apply sub_total in S. destruct S as [W T]. unfold total in T.
  rewrite <- rms_total in T by assumption. pose proof (okl_rms p W) as OK. split.
  - intros H a b Ha Hb. assert (RA : 0 <= r * a) by (apply Rmult_le_pos; assumption).
    destruct Ha as [Ha|<-].
    + destruct Hb as [Hb|<-].
      * pose proof (H (ln (b / a))) as K. assert (P : 0 < b / a) by (apply Rdiv_lt_0_compat; assumption).
        rewrite pmf_delta_curve, hockey_hs in K by assumption.
        unfold Rminus in K. rewrite exp_plus, exp_ln in K by assumption.
        pose proof (curve_scal (infinity_mass p) (rms p) a 1 (b / a) (Rlt_le _ _ Ha)) as E1.
        pose proof (hs_scal E a 1 (b / a * exp (- c)) (Rlt_le _ _ Ha)) as E2.
        replace (a * (b / a)) with b in E1 by (field; lra).
        replace (a * (b / a * exp (- c))) with (b * exp (- c)) in E2 by (field; lra).
        rewrite Rmult_1_r in E1, E2. rewrite E1, E2. nra.
      * rewrite Rmult_0_l, hs_b0 by (auto; lra).
        pose proof (curve_le_total (infinity_mass p) (rms p) a 0 OK (Rlt_le _ _ Ha) (Rle_refl 0)). nra.
    + rewrite hs_a0; [|assumption|apply Rmult_le_pos; [assumption|apply Rlt_le, exp_pos]].
      pose proof (curve_le_total (infinity_mass p) (rms p) 0 b OK (Rle_refl 0) Hb). lra.
  - intros H eps. rewrite pmf_delta_curve, hockey_hs by assumption.
    pose proof (H 1 (exp eps) Rle_0_1 (Rlt_le _ _ (exp_pos eps))) as K.
    unfold Rminus. rewrite exp_plus. lra.
Qed.

Lemma conv2_total p q : conv2 p q (fun _ => 1) = psum p (fun _ => 1) * psum q (fun _ => 1).
Proof.
  unfold conv2. rewrite (psum_ext p _ (fun _ => psum q (fun _ => 1) * 1)) by (intros; lra).
  rewrite psum_scal. lra.
Qed.
Lemma psum_one_nonneg p : wf p -> 0 <= psum p (fun _ => 1).
Proof. intros W. rewrite <- rms_total by assumption. apply rsum_nonneg. intros x Hx. apply (okl_rms p W x Hx). Qed.
Lemma sub_inf p : subproper p -> 0 <= infinity_mass p <= 1.
Proof.
  intros S. apply sub_total in S. destruct S as [W T]. pose proof (psum_one_nonneg p W). unfold total in T.
  split; [apply W | lra].
Qed.

Lemma sub_compose p q tail r : subproper p -> subproper q -> compose_ok p q tail r -> subproper r.
Proof.
  intros Sp Sq C. pose proof (sub_inf p Sp) as Ip. pose proof (sub_inf q Sq) as Iq.
  apply sub_total in Sp, Sq. destruct Sp as [Wp Tp], Sq as [Wq Tq]. apply sub_total.
  split; [exact (compose_wf p q tail r Wp Wq (or_introl (proj2 Ip)) C)|].
  pose proof (psum_one_nonneg p Wp) as Pp. pose proof (psum_one_nonneg q Wq) as Pq.
  unfold total in *.
  assert (X : conv2 p q (fun _ => 1) + combine_inf (infinity_mass p) (infinity_mass q) <= 1).
  { rewrite conv2_total. unfold combine_inf.
    assert (psum p (fun _ => 1) * psum q (fun _ => 1) <= (1 - infinity_mass p) * (1 - infinity_mass q))
      by (apply Rmult_le_compat; lra). nra. }
  destruct (pessimistic_estimate p) eqn:P.
  - destruct (co_pes _ _ _ _ C P) as [T _]. unfold total in T. lra.
  - destruct (co_opt _ _ _ _ C P) as [I T]. rewrite I.
    destruct (T (fun _ => 1) 1) as [T1 _]; [intros i j _; lra | intros; lra | lra].
Qed.

Definition loss_of (pess : bool) (tail : R) : R := if pess then tail else 0.

Lemma near_pmf_compose p q tail r c1 s1 c2 s2 E1 E2 :
  subproper p -> subproper q -> compose_ok p q tail r -> 0 <= tail ->
  0 <= c1 -> 0 <= c2 -> 0 <= s1 -> 0 <= s2 ->
  valid E1 -> pmf_near c1 s1 p E1 ->
  (forall o, In o (outs E1) -> valid (E2 o) /\ pmf_near c2 s2 q (E2 o)) ->
  pmf_near (c1 + c2) (s1 + s2 + loss_of (pessimistic_estimate p) tail) r (seq_exper E1 E2).
Proof.
  intros Sp Sq C Ht Hc1 Hc2 Hs1 Hs2 V1 N1 N2.
  pose proof (sub_compose p q tail r Sp Sq C) as Sr.
  assert (V : valid (seq_exper E1 E2)) by (apply valid_seq; [assumption | intros; apply N2; assumption]).
  assert (HL : 0 <= loss_of (pessimistic_estimate p) tail) by (unfold loss_of; destruct (pessimistic_estimate p); lra).
  apply near_pmf; [assumption | lra | assumption|].
  apply near_pmf in N1; [|assumption..].
  assert (X : exp (- c2) <= 1) by (rewrite <- exp_0; apply exp_le; lra).
  pose proof (sub_inf q Sq) as Iq. pose proof Sp as Sp'. pose proof Sq as Sq'. pose proof Sr as Sr'.
  apply sub_total in Sp', Sq', Sr'. destruct Sp' as [Wp Tp], Sq' as [Wq Tq], Sr' as [Wr _].
  unfold total in Tq. rewrite <- rms_total in Tq by assumption.
  assert (N : near (infinity_mass p + infinity_mass q - infinity_mass p * infinity_mass q)
     (prodl (rms p) (rms q)) (exp (- c1) * exp (- c2)) (s1 + s2) (seq_exper E1 E2)).
  { apply near_compose; auto using okl_rms; try apply exp_pos; try lra.
    - split; [apply exp_pos | assumption].
    - intros o Ho. destruct (N2 o Ho) as [V2 H2]. split; [assumption|]. apply near_pmf; assumption. }
  intros a b Ha Hb. specialize (N a b Ha Hb).
  replace (exp (- (c1 + c2))) with (exp (- c1) * exp (- c2)) by (rewrite <- exp_plus; f_equal; lra).
  rewrite curve_ptest by assumption. unfold curve in N.
  rewrite conv2_prod in N by (auto; apply (co_disc _ _ _ _ C)). rewrite (co_rdisc _ _ _ _ C).
  assert (Hm : mono (hg (discretization p) a b)) by (intros i j; apply hg_mono; [apply Wp | assumption]).
  assert (Hb' : forall z, 0 <= hg (discretization p) a b z <= a) by (intros; apply hg_bound; assumption).
  unfold loss_of. destruct (pessimistic_estimate p) eqn:P.
  - destruct (co_pes _ _ _ _ C P) as [_ T]. destruct (T _ a Hm Hb') as [_ T2]. specialize (T2 Ht).
    unfold combine_inf in T2. lra.
  - destruct (co_opt _ _ _ _ C P) as [I T]. destruct (T _ a Hm Hb') as [T1 _].
    unfold ptest. rewrite I. unfold combine_inf. lra.
Qed.

(** ** privacy loss distributions *)
Lemma inter_nil_inv E : interaction [] E -> E = silent.
Proof.
  intros H. remember [] as Cs eqn:HC. destruct H as [|Cs' E C E' H HE]; [reflexivity|].
  destruct Cs'; discriminate.
Qed.
Lemma inter_snoc_inv Cs C E : interaction (Cs ++ [C]) E ->
  exists E1 E2, E = seq_exper E1 E2 /\ interaction Cs E1 /\ forall a, In a (outs E1) -> C (E2 a).
Proof.
  intros H. remember (Cs ++ [C]) as Cs0 eqn:HC. destruct H as [|Cs' E C' E' H HE].
  - destruct Cs; discriminate.
  - apply app_inj_tail in HC. destruct HC as [-> ->]. exists E, E'. auto.
Qed.

Lemma hockey_silent (E2 : unit -> exper) eps : hockey_stick (seq_exper silent E2) eps = hockey_stick (E2 tt) eps.
Proof.
  rewrite !hockey_hs, hs_seq. cbn [outs silent rsum prP prQ]. rewrite !Rmult_1_r. lra.
Qed.

Lemma near_silent c r D (E2 : unit -> exper) : pld_near c r D (E2 tt) -> pld_near c r D (seq_exper silent E2).
Proof.
  intros (V & N1 & N2). split; [|split].
  - apply valid_seq; [apply valid_silent|]. intros [] _. exact V.
  - intros eps. rewrite hockey_silent. apply N1.
  - intros eps. rewrite swap_seq. change (swap silent) with silent.
    rewrite (hockey_silent (fun a => swap (E2 a))). apply N2.
Qed.

Lemma near_pld_compose pess D D' tail r c1 s1 c2 s2 E1 E2 :
  subproper_pld pess D -> subproper_pld pess D' -> pld_compose D D' tail = Ok r -> 0 <= tail ->
  0 <= c1 -> 0 <= c2 -> 0 <= s1 -> 0 <= s2 ->
  pld_near c1 s1 D E1 -> (forall o, In o (outs E1) -> pld_near c2 s2 D' (E2 o)) ->
  subproper_pld pess r /\ pld_near (c1 + c2) (s1 + s2 + loss_of pess tail) r (seq_exper E1 E2).
Proof.
  intros (W & S1 & S2 & P1 & P2) (W' & S1' & S2' & P1' & P2') H Ht Hc1 Hc2 Hs1 Hs2 (V & N1 & N2) HN.
  destruct (pld_compose_inv _ _ _ _ H (proj2 (proj2 W)) (proj2 (proj2 W'))) as (C1 & C2 & SY).
  apply compose_pmfs_ok in C1; [|apply S1|apply S1'].
  apply compose_pmfs_ok in C2; [|apply S2|apply S2'].
  pose proof (sub_compose _ _ _ _ S1 S1' C1) as R1. pose proof (sub_compose _ _ _ _ S2 S2' C2) as R2.
  split.
  - split; [split; [apply R1 | split; [apply R2 | exact SY]]|].
    split; [assumption|]. split; [assumption|].
    rewrite (co_rpess _ _ _ _ C1), (co_rpess _ _ _ _ C2). auto.
  - split; [apply valid_seq; [assumption | intros o Ho; apply (HN o Ho)]|]. split.
    + rewrite <- P1. apply (near_pmf_compose _ _ _ _ _ _ _ _ E1 E2 S1 S1' C1); auto.
      intros o Ho. destruct (HN o Ho) as (V2 & A & _). auto.
    + rewrite <- P2. rewrite swap_seq.
      apply (near_pmf_compose _ _ _ _ _ _ _ _ (swap E1) (fun a => swap (E2 a)) S2 S2' C2); auto.
      * apply valid_swap; assumption.
      * intros o Ho. destruct (HN o Ho) as (V2 & _ & A). split; [apply valid_swap; assumption | assumption].
Qed.

Definition pair_of (s : near_step) : pld * R := (step_pld s, step_tail s).

Lemma loss_nonneg pess tail : 0 <= tail -> 0 <= loss_of pess tail.
Proof. unfold loss_of. destruct pess; lra. Qed.

Lemma near_all_gen Cs pess c0 r0 D0 l : (forall E, interaction Cs E -> pld_near c0 r0 D0 E) ->
  subproper_pld pess D0 -> 0 <= c0 -> 0 <= r0 -> Forall (step_ok pess) l ->
  forall D E, compose_all D0 (map pair_of l) = Ok D ->
  interaction (Cs ++ map step_class l) E ->
  subproper_pld pess D /\
  pld_near (c0 + rsum step_shift l) (r0 + rsum (fun s => step_slack s + loss_of pess (step_tail s)) l) D E.
Proof.
  intros HB S0 Hc Hr. induction l as [|s l IH] using rev_ind; intros HF D E HD HI.
  - cbn in HD. injection HD as <-. split; [assumption|]. cbn [map] in HI.
    rewrite app_nil_r in HI. cbn [rsum]. rewrite !Rplus_0_r. apply HB. assumption.
  - apply Forall_app in HF. destruct HF as [HF HS]. apply Forall_inv in HS.
    rewrite map_app in HD. cbn [map] in HD. unfold pair_of in HD at 2. rewrite compose_all_snoc in HD.
    destruct (compose_all D0 (map pair_of l)) as [D1|] eqn:E1; [|discriminate]. cbn [bind] in HD.
    rewrite map_app in HI. cbn [map] in HI. rewrite app_assoc in HI.
    apply inter_snoc_inv in HI. destruct HI as (Ea & Eb & -> & H1 & H2).
    destruct (IH HF D1 Ea eq_refl H1) as [SD ND]. destruct HS as (S1 & T1 & C1 & L1).
    assert (PC : 0 <= rsum step_shift l).
    { apply rsum_nonneg. intros x Hx. rewrite Forall_forall in HF. apply (HF x Hx). }
    assert (PR : 0 <= rsum (fun s => step_slack s + loss_of pess (step_tail s)) l).
    { apply rsum_nonneg. intros x Hx. rewrite Forall_forall in HF. destruct (HF x Hx) as (_ & A & _ & B).
      pose proof (loss_nonneg pess _ A). lra. }
    rewrite !rsum_app. cbn [rsum].
    replace (c0 + (rsum step_shift l + (step_shift s + 0))) with (c0 + rsum step_shift l + step_shift s) by lra.
    replace (r0 + (rsum (fun s => step_slack s + loss_of pess (step_tail s)) l + (step_slack s + loss_of pess (step_tail s) + 0)))
      with (r0 + rsum (fun s => step_slack s + loss_of pess (step_tail s)) l + step_slack s + loss_of pess (step_tail s)) by lra.
    apply (near_pld_compose pess D1 (step_pld s) (step_tail s) D (c0 + rsum step_shift l) _ _ _ Ea Eb SD S1 HD T1); auto; lra.
Qed.

Lemma near_all pess c0 r0 D0 l : subproper_pld pess D0 -> 0 <= c0 -> 0 <= r0 -> Forall (step_ok pess) l ->
  forall D E, compose_all D0 (map pair_of l) = Ok D ->
  interaction (pld_near c0 r0 D0 :: map step_class l) E ->
  subproper_pld pess D /\
  pld_near (c0 + rsum step_shift l) (r0 + rsum (fun s => step_slack s + loss_of pess (step_tail s)) l) D E.
Proof.
  apply (near_all_gen [pld_near c0 r0 D0]). intros E HI.
  change [pld_near c0 r0 D0] with ([] ++ [pld_near c0 r0 D0]) in HI.
  apply inter_snoc_inv in HI. destruct HI as (E1 & E2 & -> & H1 & H2).
  apply inter_nil_inv in H1. subst E1. apply near_silent. apply H2. left. reflexivity.
Qed.

Lemma identity_near disc I : 0 < disc -> identity disc = Ok I -> subproper_pld true I /\ pld_near 0 0 I silent.
Proof.
  intros Hd H. rewrite identity_eq in H. injection H as <-. pose proof (identity_wf disc Hd) as W. split.
  - assert (S : subproper (mkPmf disc 0 true (Sparse [(0%Z, 1)]))).
    { apply sub_total. split; [assumption|]. unfold total, psum. cbn. lra. }
    repeat split; auto; apply W || apply S.
  - assert (K : forall eps, pmf_delta (mkPmf disc 0 true (Sparse [(0%Z, 1)])) (Fin eps) <= hockey_stick silent (eps - 0) + 0).
    { intros eps. rewrite identity_delta by assumption. unfold hockey_stick. cbn. rewrite Rminus_0_r.
      replace (1 - exp eps * 1) with (1 - exp eps) by lra. lra. }
    split; [apply valid_silent|]. split; exact K.
Qed.

(** starting from identity() *)
Lemma near_identity disc I l D E eps d : 0 < disc -> identity disc = Ok I -> Forall (step_ok true) l ->
  compose_all I (map pair_of l) = Ok D -> interaction (map step_class l) E ->
  dp_both E (eps - rsum step_shift l) d ->
  pld_delta D (Fin eps) <= d + rsum (fun s => step_slack s + step_tail s) l.
Proof.
  intros Hd HI HF HD HE Hdp. destruct (identity_near disc I Hd HI) as [S0 N0].
  destruct (near_all_gen [] true 0 0 I l) with (D := D) (E := E) as [(W & _) N]; auto; try lra.
  { intros E' H. apply inter_nil_inv in H. subst E'. exact N0. }
  unfold loss_of in N. rewrite !Rplus_0_l in N.
  destruct N as (_ & N1 & N2). destruct Hdp as [H1 H2]. rewrite pld_delta_max by assumption.
  apply dp_iff_hockey in H1, H2. specialize (N1 eps). specialize (N2 eps). apply Rmax_lub; lra.
Qed.

Lemma near_delta c r D E eps d : wf_pld D -> pld_near c r D E -> dp_both E (eps - c) d -> pld_delta D (Fin eps) <= d + r.
Proof.
  intros W (_ & N1 & N2) [H1 H2]. rewrite pld_delta_max by assumption.
  apply dp_iff_hockey in H1, H2. specialize (N1 eps). specialize (N2 eps). apply Rmax_lub; lra.
Qed.

Lemma near_accounting pess c0 r0 D0 l D E eps d :
  subproper_pld pess D0 -> 0 <= c0 -> 0 <= r0 -> Forall (step_ok pess) l ->
  compose_all D0 (map pair_of l) = Ok D ->
  interaction (pld_near c0 r0 D0 :: map step_class l) E ->
  dp_both E (eps - (c0 + rsum step_shift l)) d ->
  pld_delta D (Fin eps) <= d + r0 + rsum (fun s => step_slack s + if pess then step_tail s else 0) l.
Proof.
  intros S0 Hc Hr HF HD HI HE. destruct (near_all pess c0 r0 D0 l S0 Hc Hr HF D E HD HI) as [(W & _) N].
  pose proof (near_delta _ _ D E eps d W N HE) as K. unfold loss_of in K. lra.
Qed.

(** Optimistic distributions: a lower bound. *)
Lemma near_optimistic D0 l D E eps d :
  subproper_pld false D0 -> Forall (fun x => subproper_pld false (fst x) /\ 0 <= snd x) l ->
  compose_all D0 l = Ok D ->
  interaction (pld_near 0 0 D0 :: map (fun x => pld_near 0 0 (fst x)) l) E ->
  dp_both E eps d -> pld_delta D (Fin eps) <= d.
Proof.
  intros S0 HF HD HI HE.
  set (st := fun x : pld * R => mkNear (fst x) (snd x) 0 0).
  assert (E1 : map pair_of (map st l) = l).
  { rewrite map_map. rewrite <- (map_id l) at 2. apply map_ext. intros []; reflexivity. }
  assert (E2 : map step_class (map st l) = map (fun x => pld_near 0 0 (fst x)) l) by (rewrite map_map; reflexivity).
  assert (Z1 : rsum step_shift (map st l) = 0) by (rewrite rsum_map; apply rsum_zero; reflexivity).
  assert (Z2 : rsum (fun s => step_slack s + 0) (map st l) = 0) by (rewrite rsum_map; apply rsum_zero; intros; cbn; lra).
  pose proof (near_accounting false 0 0 D0 (map st l) D E eps d S0) as K. rewrite E1, E2, Z1, Z2 in K.
  replace (eps - (0 + 0)) with eps in K by lra.
  assert (F : Forall (step_ok false) (map st l)).
  { apply Forall_map. eapply Forall_impl; [|exact HF]. intros x [A B]. repeat split; cbn; try apply A; try assumption; lra. }
  specialize (K (Rle_refl 0) (Rle_refl 0) F HD HI HE). lra.
Qed.

(** ** self composition *)
Lemma near_repeat c s p n : subproper p -> 0 <= c -> 0 <= s ->
  forall E, interaction (repeat (fun E => valid E /\ pmf_near c s p E) n) E ->
  valid E /\ exists r, power_ok p n r /\ same_class r p = true /\ subproper r /\
    pmf_near (INR n * c) (INR n * s) r E.
Proof.
  intros S Hc Hs. pose proof (proj1 S) as W. induction n as [|n IH]; intros E HI.
  - apply inter_nil_inv in HI. subst E. split; [apply valid_silent|].
    exists (unit_of p). pose proof (unit_power p W) as U.
    split; [assumption|]. split; [apply unit_class|]. split.
    + apply sub_total. split; [apply U|]. unfold total. rewrite (pw_sum _ _ _ U). cbn [pown unit_of infinity_mass]. lra.
    + intros e. cbn [INR]. rewrite pmf_delta_psum by apply U. unfold ptest. rewrite (pw_sum _ _ _ U).
      cbn [pown]. unfold hgain, hockey_stick. cbn.
      rewrite !Rmult_0_l, !Rminus_0_r, !Rplus_0_r. replace (1 - exp e * 1) with (1 - exp e) by lra. lra.
  - change (repeat (fun E => valid E /\ pmf_near c s p E) (Datatypes.S n))
      with ((fun E => valid E /\ pmf_near c s p E) :: repeat (fun E => valid E /\ pmf_near c s p E) n) in HI.
    rewrite repeat_cons in HI. apply inter_snoc_inv in HI. destruct HI as (E1 & E2 & -> & H1 & H2).
    destruct (IH E1 H1) as (V & r & R1 & R2 & R3 & R4).
    destruct (power_next p n r W (proj2 (sub_inf p S)) R1 R2) as (r' & C & R1' & R2').
    split; [apply valid_seq; [assumption | intros o Ho; apply (H2 o Ho)]|].
    exists r'. split; [assumption|]. split; [assumption|]. split; [exact (sub_compose _ _ _ _ R3 S C)|].
    pose proof (pos_INR n) as Pn.
    rewrite !S_INR, !Rmult_plus_distr_r, !Rmult_1_l.
    pose proof (near_pmf_compose r p 0 r' (INR n * c) (INR n * s) c s E1 E2 R3 S C (Rle_refl 0)) as K.
    replace (INR n * s + s) with (INR n * s + s + loss_of (pessimistic_estimate r) 0)
      by (unfold loss_of; destruct (pessimistic_estimate r); lra).
    apply K; auto; apply Rmult_le_pos; assumption.
Qed.

Lemma self_near fast_len p n tail r r' e :
  (forall k, (k <= fast_len k)%nat) -> wf p -> infinity_mass p <= 1 ->
  0 <= tail -> (pessimistic_estimate p = false -> tail = 0) ->
  pmf_self_compose fast_len p n tail = Ok r -> power_ok p (Z.to_nat n) r' ->
  pmf_delta r (Fin e) <= pmf_delta r' (Fin e) + 2 * tail.
Proof.
  intros Hf W Ip Ht HP H C. apply self_compose_ok in H; [|assumption..].
  rewrite !pmf_delta_psum by (apply (so_wf _ _ _ _ H) || apply (pw_wf _ _ _ C)).
  rewrite (so_disc _ _ _ _ H), (pw_disc _ _ _ C).
  assert (X : ptest r' (hgain (discretization p) e) 1 =
    pown p (Z.to_nat n) (hgain (discretization p) e) + (1 - (1 - infinity_mass p) ^ Z.to_nat n) * 1).
  { unfold ptest. rewrite (pw_sum _ _ _ C). pose proof (pw_inf _ _ _ C). f_equal. lra. }
  rewrite X. destruct (pessimistic_estimate p) eqn:P.
  - assert (Hm : mono (hgain (discretization p) e)) by (unfold mono; apply hgain_mono; apply W).
    assert (Hb : forall z, 0 <= hgain (discretization p) e z <= 1)
      by (intros; split; [apply hgain_nonneg | apply hgain_le_1]).
    pose proof (so_up _ _ _ _ H P _ 1 Hm Hb) as U. lra.
  - rewrite HP in * by reflexivity. pose proof (so_exact _ _ _ _ H eq_refl) as Q.
    unfold ptest. rewrite (pw_sum _ _ _ Q). pose proof (pw_inf _ _ _ Q). lra.
Qed.

Lemma inter_impl (C C' : exper -> Prop) n :
  (forall E, C E -> C' E) -> forall E, interaction (repeat C n) E -> interaction (repeat C' n) E.
Proof.
  intros HC. induction n as [|n IH]; intros E HI; [assumption|].
  change (repeat C (S n)) with (C :: repeat C n) in HI. change (repeat C' (S n)) with (C' :: repeat C' n).
  rewrite repeat_cons in *. apply inter_snoc_inv in HI. destruct HI as (E1 & E2 & -> & H1 & H2).
  constructor; auto.
Qed.
Lemma inter_swap (C C' : exper -> Prop) n :
  (forall E, C E -> C' (swap E)) -> forall E, interaction (repeat C n) E -> interaction (repeat C' n) (swap E).
Proof.
  intros HC. induction n as [|n IH]; intros E HI.
  - apply inter_nil_inv in HI. subst E. constructor.
  - change (repeat C (S n)) with (C :: repeat C n) in HI. change (repeat C' (S n)) with (C' :: repeat C' n).
    rewrite repeat_cons in *. apply inter_snoc_inv in HI. destruct HI as (E1 & E2 & -> & H1 & H2).
    rewrite swap_seq. constructor; auto.
Qed.

Lemma near_self fast_len pess D n tail r c s E eps d :
  (forall k, (k <= fast_len k)%nat) -> subproper_pld pess D -> 0 <= c -> 0 <= s ->
  0 <= tail -> (pess = false -> tail = 0) ->
  pld_self_compose fast_len D n tail = Ok r ->
  interaction (repeat (pld_near c s D) (Z.to_nat n)) E ->
  dp_both E (eps - IZR n * c) d ->
  pld_delta r (Fin eps) <= d + IZR n * s + 2 * tail.
Proof.
  intros Hf (W & S1 & S2 & P1 & P2) Hc Hs Ht HT H HI [H1 H2].
  destruct (pld_self_inv _ _ _ _ _ H (proj2 (proj2 W))) as (C1 & C2 & SR).
  assert (Hn : (0 < n)%Z).
  { destruct (Z_lt_le_dec 0 n); [assumption|]. exfalso. unfold pmf_self_compose in C1.
    destruct (pmf_body (pmf_remove D)).
    - destruct (Z.leb_spec n 0); [discriminate | lia].
    - unfold dense_self_compose in C1. destruct (Z.leb_spec n 0); [discriminate | lia]. }
  assert (EN : IZR n = INR (Z.to_nat n)) by (rewrite INR_IZR_INZ, Z2Nat.id by lia; reflexivity).
  assert (I1 : interaction (repeat (fun E => valid E /\ pmf_near c s (pmf_remove D) E) (Z.to_nat n)) E).
  { eapply inter_impl; [|exact HI]. intros E' (V & A & _). split; assumption. }
  assert (I2 : interaction (repeat (fun E => valid E /\ pmf_near c s (pmf_add D) E) (Z.to_nat n)) (swap E)).
  { eapply inter_swap; [|exact HI]. intros E' (V & _ & A). split; [apply valid_swap|]; assumption. }
  destruct (near_repeat c s _ _ S1 Hc Hs _ I1) as (_ & r1 & A1 & _ & _ & A2).
  destruct (near_repeat c s _ _ S2 Hc Hs _ I2) as (_ & r2 & B1 & _ & _ & B2).
  apply dp_iff_hockey in H1, H2. rewrite EN in *.
  assert (K1 := self_near fast_len _ _ _ _ _ eps Hf (proj1 S1) (proj2 (sub_inf _ S1)) Ht ltac:(rewrite P1; exact HT) C1 A1).
  assert (K2 := self_near fast_len _ _ _ _ _ eps Hf (proj1 S2) (proj2 (sub_inf _ S2)) Ht ltac:(rewrite P2; exact HT) C2 B1).
  specialize (A2 eps). specialize (B2 eps).
  unfold pld_delta. destruct (symmetric r); [|apply Rmax_lub]; lra.
Qed.
