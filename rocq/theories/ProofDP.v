(** Lemmas about the specification of differential privacy. *)
From Verif Require Import Base SpecDP.

(** Homogeneous form of the hockey stick divergence. *)
Definition hs (E : exper) (a b : R) : R :=
  rsum (fun o => pos (a * prP E o - b * prQ E o)) (outs E).

Lemma hockey_hs E eps : hockey_stick E eps = hs E 1 (exp eps).
Proof. unfold hockey_stick, hs. apply rsum_ext; intros; f_equal; lra. Qed.

Lemma hs_nonneg E a b : 0 <= hs E a b.
Proof. apply rsum_nonneg; intros; apply pos_nonneg. Qed.

Lemma dp_event_le E eps (S : outcome E -> bool) :
  ProbP E S - exp eps * ProbQ E S <= hockey_stick E eps.
Proof.
  unfold ProbP, ProbQ, hockey_stick. rewrite !rsum_filter, <- rsum_scal, <- rsum_minus.
  apply rsum_le. intros a _. destruct (S a).
  - apply pos_ge.
  - rewrite Rmult_0_r, Rminus_0_r. apply pos_nonneg.
Qed.

(** The hockey stick divergence is attained by an event. *)
Lemma dp_event_attained E eps : exists S : outcome E -> bool,
  ProbP E S - exp eps * ProbQ E S = hockey_stick E eps.
Proof.
  exists (fun a => Rleb 0 (prP E a - exp eps * prQ E a)).
  unfold ProbP, ProbQ, hockey_stick. rewrite !rsum_filter, <- rsum_scal, <- rsum_minus.
  apply rsum_ext. intros a _. rcase.
  - rewrite pos_eq; lra.
  - rewrite pos_0; lra.
Qed.

Lemma dp_iff_hockey E eps delta : dp E eps delta <-> hockey_stick E eps <= delta.
Proof.
  split.
  - intros H. destruct (dp_event_attained E eps) as [S HS]. specialize (H S). lra.
  - intros H S. pose proof (dp_event_le E eps S). lra.
Qed.

Lemma valid_swap E : valid E -> valid (swap E).
Proof. intros (H & H1 & H2). split; [|split; assumption]. simpl. intros a Ha.
  destruct (H a Ha); split; assumption. Qed.

Lemma valid_silent : valid silent.
Proof. repeat split; simpl; intros; lra. Qed.

Lemma rsum_seq E1 E2 (f : outcome (seq_exper E1 E2) -> R) :
  rsum f (outs (seq_exper E1 E2)) =
  rsum (fun a => rsum (fun b => f (existT _ a b)) (outs (E2 a))) (outs E1).
Proof.
  simpl. rewrite rsum_flat_map. apply rsum_ext. intros. rewrite rsum_map. reflexivity.
Qed.

Lemma seq_In E1 E2 ab : In ab (outs (seq_exper E1 E2)) ->
  In (projT1 ab) (outs E1) /\ In (projT2 ab) (outs (E2 (projT1 ab))).
Proof.
  simpl. intros H. apply in_flat_map in H. destruct H as (a & Ha & H).
  apply in_map_iff in H. destruct H as (b & <- & Hb). split; assumption.
Qed.

Lemma valid_seq E1 E2 : valid E1 -> (forall a, In a (outs E1) -> valid (E2 a)) ->
  valid (seq_exper E1 E2).
Proof.
  intros (N1 & P1 & Q1) H2. split; [|split].
  - intros ab Hab. apply seq_In in Hab. destruct Hab as [Ha Hb].
    destruct (N1 _ Ha). destruct (H2 _ Ha) as (N2 & _ & _). destruct (N2 _ Hb).
    simpl. split; apply Rmult_le_pos; assumption.
  - rewrite rsum_seq. simpl. rewrite <- P1. apply rsum_ext. intros a Ha.
    rewrite rsum_scal. destruct (H2 a Ha) as (_ & -> & _). lra.
  - rewrite rsum_seq. simpl. rewrite <- Q1. apply rsum_ext. intros a Ha.
    rewrite rsum_scal. destruct (H2 a Ha) as (_ & _ & ->). lra.
Qed.

Lemma hs_seq E1 E2 a b :
  hs (seq_exper E1 E2) a b =
  rsum (fun o => hs (E2 o) (a * prP E1 o) (b * prQ E1 o)) (outs E1).
Proof.
  unfold hs. rewrite rsum_seq. apply rsum_ext. intros. apply rsum_ext. intros.
  simpl. f_equal. lra.
Qed.

Lemma swap_seq E1 E2 :
  swap (seq_exper E1 E2) = seq_exper (swap E1) (fun a => swap (E2 a)).
Proof. reflexivity. Qed.

Lemma swap_swap E : swap (swap E) = E.
Proof. destruct E; reflexivity. Qed.

Lemma hs_ge E a b : valid E -> a - b <= hs E a b.
Proof.
  intros (_ & HP & HQ). unfold hs.
  replace (a - b) with (rsum (fun o => a * prP E o - b * prQ E o) (outs E)).
  - apply rsum_le. intros; apply pos_ge.
  - rewrite rsum_minus, !rsum_scal, HP, HQ. lra.
Qed.

Lemma hs_b0 E a : valid E -> 0 <= a -> hs E a 0 = a.
Proof.
  intros (N & HP & _) Ha. unfold hs.
  transitivity (rsum (fun o => a * prP E o) (outs E)).
  - apply rsum_ext. intros o Ho. destruct (N o Ho). rewrite pos_eq; nra.
  - rewrite rsum_scal, HP. lra.
Qed.

Lemma hs_a0 E b : valid E -> 0 <= b -> hs E 0 b = 0.
Proof.
  intros (N & _ & _) Hb. unfold hs. apply rsum_zero. intros o Ho.
  destruct (N o Ho). apply pos_0. nra.
Qed.

Lemma hs_scal E c a b : 0 <= c -> hs E (c * a) (c * b) = c * hs E a b.
Proof.
  intros Hc. unfold hs. rewrite <- rsum_scal. apply rsum_ext. intros.
  rewrite <- pos_scal by assumption. f_equal; lra.
Qed.

Lemma hs_sub E a1 b1 a2 b2 : hs E (a1 + a2) (b1 + b2) <= hs E a1 b1 + hs E a2 b2.
Proof.
  unfold hs. rewrite <- rsum_plus. apply rsum_le. intros o _.
  eapply Rle_trans; [|apply pos_plus]. right. f_equal. lra.
Qed.

Lemma hs_le_a E a b : valid E -> 0 <= a -> 0 <= b -> hs E a b <= a.
Proof.
  intros HV Ha Hb. pose proof HV as (N & HP & HQ). unfold hs.
  apply Rle_trans with (rsum (fun o => a * prP E o) (outs E));
    [|rewrite rsum_scal, HP; lra].
  apply rsum_le. intros o Ho. destruct (N o Ho).
  assert (0 <= a * prP E o) by (apply Rmult_le_pos; lra).
  assert (0 <= b * prQ E o) by (apply Rmult_le_pos; lra).
  apply pos_le_bound; lra.
Qed.

(** ** Finite privacy loss distributions as lists of (e^{-loss}, probability). *)
Definition curve (inf : R) (l : list (R * R)) (a b : R) : R :=
  inf * a + rsum (fun rm => snd rm * pos (a - b * fst rm)) l.

Definition okl (l : list (R * R)) := forall rm, In rm l -> 0 < fst rm /\ 0 <= snd rm.

Definition hbounds (inf : R) (l : list (R * R)) (E : exper) : Prop :=
  forall a b, 0 <= a -> 0 <= b -> hs E a b <= curve inf l a b.

Lemma curve_le_total inf l a b : okl l -> 0 <= a -> 0 <= b ->
  curve inf l a b <= (inf + rsum snd l) * a.
Proof.
  intros Hl Ha Hb. unfold curve. rewrite Rmult_plus_distr_r, <- rsum_scal_r.
  apply Rplus_le_compat_l, rsum_le. intros rm Hin. destruct (Hl rm Hin).
  apply Rmult_le_compat_l; [assumption|]. apply pos_le_bound; nra.
Qed.

Lemma curve_nonneg inf l a b : 0 <= inf -> okl l -> 0 <= a -> 0 <= curve inf l a b.
Proof.
  intros Hi Hl Ha. unfold curve. assert (0 <= inf * a) by (apply Rmult_le_pos; lra).
  assert (0 <= rsum (fun rm => snd rm * pos (a - b * fst rm)) l).
  { apply rsum_nonneg. intros rm Hin. destruct (Hl rm Hin).
    apply Rmult_le_pos; [assumption | apply pos_nonneg]. }
  lra.
Qed.

Lemma curve_scal inf l c a b : 0 <= c -> curve inf l (c * a) (c * b) = c * curve inf l a b.
Proof.
  intros Hc. unfold curve. rewrite Rmult_plus_distr_l, <- rsum_scal. f_equal; [lra|].
  apply rsum_ext. intros rm _.
  replace (c * a - c * b * fst rm) with (c * (a - b * fst rm)) by lra.
  rewrite pos_scal by assumption. lra.
Qed.

(** From the bound at all eps to the homogeneous bound. *)
Lemma hbounds_of_eps inf l E :
  valid E -> 0 <= inf -> okl l ->
  (forall eps, hockey_stick E eps <= curve inf l 1 (exp eps)) -> hbounds inf l E.
Proof.
  intros HV Hi Hl H a b Ha Hb.
  destruct (Req_dec a 0) as [->|Ha0].
  { rewrite hs_a0 by assumption. apply curve_nonneg; auto; lra. }
  destruct (Req_dec b 0) as [->|Hb0].
  - rewrite hs_b0 by assumption.
    assert (HT : 1 <= inf + rsum snd l).
    { destruct (Rle_dec 1 (inf + rsum snd l)) as [|C]; [assumption|].
      set (t := (1 - (inf + rsum snd l)) / 2). assert (0 < t) by (unfold t; lra).
      specialize (H (ln t)). rewrite hockey_hs, exp_ln in H by assumption.
      pose proof (hs_ge E 1 t HV).
      assert (Hc := curve_le_total inf l 1 t Hl ltac:(lra) ltac:(lra)).
      unfold t in *. lra. }
    replace (curve inf l a 0) with ((inf + rsum snd l) * a); [nra|].
    unfold curve. rewrite Rmult_plus_distr_r, <- rsum_scal_r. f_equal.
    apply rsum_ext. intros rm _. rewrite pos_eq; lra.
  - replace a with (a * 1) by lra. replace b with (a * (b / a)) by (field; lra).
    rewrite hs_scal, curve_scal by assumption.
    apply Rmult_le_compat_l; [assumption|].
    assert (0 < b / a) by (apply Rdiv_lt_0_compat; lra).
    specialize (H (ln (b / a))). rewrite hockey_hs, exp_ln in H by assumption. exact H.
Qed.

Lemma eps_of_hbounds inf l E : hbounds inf l E ->
  forall eps, hockey_stick E eps <= curve inf l 1 (exp eps).
Proof. intros H eps. rewrite hockey_hs. apply H; [lra | apply exp_pos_nonneg]. Qed.

(** Trimming the smallest losses (largest e^{-loss}) of a pld whose total mass
    exceeds 1: the list is sorted with the largest e^{-loss} first. *)
Inductive desc : list (R * R) -> Prop :=
| desc_nil : desc []
| desc_cons : forall rm l, (forall x, In x l -> fst x <= fst rm) -> desc l -> desc (rm :: l).

Lemma linear_part l rs a b :
  (forall rm, In rm l -> fst rm <= rs \/ snd rm = 0) -> 0 <= b -> b * rs <= a ->
  rsum (fun rm => snd rm * pos (a - b * fst rm)) l =
  rsum (fun rm => snd rm * (a - b * fst rm)) l.
Proof.
  intros H Hb Ha. apply rsum_ext. intros rm Hin. destruct (H rm Hin) as [Hr|E].
  - rewrite pos_eq; [reflexivity|]. nra.
  - rewrite E. lra.
Qed.

Lemma trim l e : desc l -> okl l -> 0 <= e -> e <= rsum snd l ->
  exists l' rs, Forall2 (fun x' x => fst x' = fst x /\ 0 <= snd x' <= snd x) l' l /\
    rsum snd l' = rsum snd l - e /\
    0 < rs /\ (l <> [] -> exists x, In x l /\ rs = fst x) /\
    (forall a b, 0 <= b -> a <= b * rs ->
       rsum (fun rm => snd rm * pos (a - b * fst rm)) l' =
       rsum (fun rm => snd rm * pos (a - b * fst rm)) l) /\
    (forall rm, In rm l' -> fst rm <= rs \/ snd rm = 0).
Proof.
  intros D. revert e. induction D as [|[r m] l Hr D IH]; intros e Hl He0 He.
  - exists [], 1. simpl in *. repeat split; auto; try lra; try contradiction.
  - assert (Hm : 0 < r /\ 0 <= m) by (apply (Hl (r, m)); left; reflexivity).
    assert (Hl' : okl l) by (intros x Hx; apply Hl; right; assumption).
    cbn [rsum snd] in He.
    destruct (Rle_dec e m) as [Hem|Hem].
    + exists ((r, m - e) :: l), r. split; [|split; [|split; [|split; [|split]]]].
      * constructor; [simpl; split; [reflexivity | lra]|].
        clear - Hl'. induction l as [|x l IH]; constructor; auto.
        -- split; [reflexivity|]. destruct (Hl' x (or_introl eq_refl)). lra.
        -- apply IH. intros y Hy. apply Hl'. right; assumption.
      * cbn [rsum snd]. lra.
      * lra.
      * intros _. exists (r, m). split; [left|]; reflexivity.
      * intros a b Hb Ha. cbn [rsum fst snd]. f_equal.
        rewrite !(pos_0 (a - b * r)) by lra. lra.
      * intros rm [<-|Hin]; left; [simpl; lra | apply (Hr rm Hin)].
    + destruct (IH (e - m) Hl' ltac:(lra) ltac:(lra)) as (l' & rs & F & S & Hrs0 & X & P3 & P4).
      assert (l <> []) as Hne by (intros ->; simpl in He; lra).
      destruct (X Hne) as (x & Hx & Ers).
      exists ((r, 0) :: l'), rs. split; [|split; [|split; [|split; [|split]]]].
      * constructor; [simpl; split; [reflexivity | lra] | assumption].
      * cbn [rsum snd]. lra.
      * assumption.
      * intros _. exists x. split; [right|]; assumption.
      * intros a b Hb Ha. cbn [rsum fst snd]. rewrite P3 by assumption.
        rewrite pos_0; [lra|]. pose proof (Hr x Hx) as Hxr. cbn [fst] in Hxr. nra.
      * intros rm [<-|Hin]; [right; reflexivity | apply P4; assumption].
Qed.

Lemma rsum_Forall2 {A B} (R0 : A -> B -> Prop) f g la lb :
  Forall2 R0 la lb -> (forall x y, R0 x y -> f x <= g y) -> rsum f la <= rsum g lb.
Proof.
  intros H Hf. induction H; simpl; [lra|]. pose proof (Hf _ _ H). lra.
Qed.

Lemma normalise inf l :
  desc l -> okl l -> 0 <= inf <= 1 -> 1 <= inf + rsum snd l ->
  exists l', Forall2 (fun x' x => fst x' = fst x /\ 0 <= snd x' <= snd x) l' l /\
    inf + rsum snd l' = 1 /\
    forall E, valid E -> hbounds inf l E -> hbounds inf l' E.
Proof.
  intros D Hl Hi HT.
  destruct (trim l (inf + rsum snd l - 1) D Hl ltac:(lra) ltac:(lra))
    as (l' & rs & F & S & Hrs0 & X & P3 & P4).
  exists l'. split; [assumption|]. split; [lra|].
  intros E HV HB a b Ha Hb.
  destruct (Rle_dec a (b * rs)) as [Hc|Hc].
  - unfold curve. rewrite P3 by assumption. apply HB; assumption.
  - assert (Hrs : 0 <= b * rs).
    { nra. }
    assert (HS := hs_sub E (a - b * rs) 0 (b * rs) b).
    replace (a - b * rs + b * rs) with a in HS by lra.
    replace (0 + b) with b in HS by lra.
    eapply Rle_trans; [exact HS|].
    rewrite hs_b0 by (auto; lra).
    assert (HB1 := HB (b * rs) b Hrs Hb).
    unfold curve in HB1. rewrite <- P3 in HB1 by lra.
    unfold curve.
    rewrite (linear_part l' rs) by (auto; lra).
    rewrite (linear_part l' rs) in HB1 by (auto; lra).
    assert (E1 : rsum (fun rm => snd rm * (a - b * fst rm)) l' =
                 rsum (fun rm => snd rm * (b * rs - b * fst rm)) l' + rsum snd l' * (a - b * rs)).
    { rewrite <- rsum_scal_r, <- rsum_plus. apply rsum_ext. intros; lra. }
    rewrite E1. replace (rsum snd l') with (1 - inf) by lra. nra.
Qed.

(** Product of two plds. *)
Definition prodl (l1 l2 : list (R * R)) : list (R * R) :=
  flat_map (fun x => map (fun y => (fst x * fst y, snd x * snd y)) l2) l1.

Lemma rsum_prodl (f : R * R -> R) l1 l2 :
  rsum f (prodl l1 l2) =
  rsum (fun x => rsum (fun y => f (fst x * fst y, snd x * snd y)) l2) l1.
Proof.
  unfold prodl. rewrite rsum_flat_map. apply rsum_ext. intros. rewrite rsum_map. reflexivity.
Qed.

Lemma total_ge_1 inf l E : valid E -> hbounds inf l E -> 1 <= inf + rsum snd l.
Proof.
  intros HV HB. specialize (HB 1 0 ltac:(lra) ltac:(lra)). rewrite hs_b0 in HB by (auto; lra).
  unfold curve in HB.
  replace (rsum (fun rm => snd rm * pos (1 - 0 * fst rm)) l) with (rsum snd l) in HB; [lra|].
  apply rsum_ext. intros. rewrite pos_eq; lra.
Qed.

Lemma compose_bound inf1 l1 inf2 l2 E1 E2 :
  0 <= inf1 -> okl l1 -> desc l2 -> okl l2 -> 0 <= inf2 ->
  inf1 <= 1 \/ inf2 <= 1 ->
  valid E1 -> hbounds inf1 l1 E1 ->
  (forall o, In o (outs E1) -> valid (E2 o) /\ hbounds inf2 l2 (E2 o)) ->
  hbounds (inf1 + inf2 - inf1 * inf2) (prodl l1 l2) (seq_exper E1 E2).
Proof.
  intros Hi1 Hl1 D2 Hl2 Hi2 Hor HV1 HB1 HE2 a b Ha Hb.
  assert (HV : valid (seq_exper E1 E2))
    by (apply valid_seq; [assumption | intros o Ho; apply (HE2 o Ho)]).
  assert (Hp : okl (prodl l1 l2)).
  { intros rm Hin. apply in_flat_map in Hin. destruct Hin as (x & Hx & Hin).
    apply in_map_iff in Hin. destruct Hin as (y & <- & Hy).
    destruct (Hl1 x Hx), (Hl2 y Hy). simpl. split; [nra|]. apply Rmult_le_pos; assumption. }
  destruct (Rle_dec inf2 1) as [H2|H2].
  2: { (* the infinity mass alone is at least 1 *)
    eapply Rle_trans; [apply hs_le_a; assumption|].
    unfold curve.
    assert (0 <= rsum (fun rm => snd rm * pos (a - b * fst rm)) (prodl l1 l2)).
    { apply rsum_nonneg. intros rm Hin. destruct (Hp rm Hin).
      apply Rmult_le_pos; [assumption | apply pos_nonneg]. }
    assert (1 <= inf1 + inf2 - inf1 * inf2) by nra. nra. }
  assert (HT : 1 <= inf2 + rsum snd l2).
  { pose proof HV1 as (_ & HP1 & _). destruct (outs E1) as [|o os] eqn:Eo.
    - simpl in HP1; lra.
    - destruct (HE2 o) as [Hv Hb2]; [left; reflexivity|].
      eapply total_ge_1; eassumption. }
  destruct (normalise inf2 l2 D2 Hl2 ltac:(lra) HT) as (l2' & F & S & N).
  rewrite hs_seq.
  apply Rle_trans with
    (rsum (fun o => curve inf2 l2' (a * prP E1 o) (b * prQ E1 o)) (outs E1)).
  { apply rsum_le. intros o Ho. destruct (HE2 o Ho) as [Hv Hb2].
    destruct HV1 as (N1 & _ & _). destruct (N1 o Ho).
    apply N; auto; apply Rmult_le_pos; assumption. }
  unfold curve. rewrite rsum_plus.
  replace (rsum (fun o => inf2 * (a * prP E1 o)) (outs E1)) with (inf2 * a).
  2: { destruct HV1 as (_ & HP1 & _). rewrite rsum_scal, rsum_scal, HP1. lra. }
  rewrite rsum_swap.
  apply Rle_trans with (inf2 * a + rsum (fun y => snd y * curve inf1 l1 a (b * fst y)) l2').
  { apply Rplus_le_compat_l, rsum_le. intros y Hy.
    assert (Hy' : 0 < fst y /\ 0 <= snd y).
    { clear - F Hy Hl2. induction F as [|y' y0 l' l [E R0] F IH]; [contradiction|].
      destruct Hy as [->|Hy].
      - destruct (Hl2 y0 (or_introl eq_refl)). rewrite E. lra.
      - apply IH; auto. intros z Hz; apply Hl2; right; assumption. }
    rewrite rsum_scal. apply Rmult_le_compat_l; [lra|].
    eapply Rle_trans; [|apply HB1; [assumption | apply Rmult_le_pos; lra]].
    right. unfold hs. apply rsum_ext. intros. f_equal. lra. }
  unfold curve.
  assert (E0 : rsum (fun y => snd y * (inf1 * a + rsum (fun rm => snd rm * pos (a - b * fst y * fst rm)) l1)) l2'
     = inf1 * a * rsum snd l2' + rsum (fun y => rsum (fun x => snd x * snd y * pos (a - b * (fst x * fst y))) l1) l2').
  { rewrite <- rsum_scal, <- rsum_plus. apply rsum_ext. intros y _.
    rewrite Rmult_plus_distr_l, <- rsum_scal. f_equal; [lra|].
    apply rsum_ext. intros x _. replace (a - b * fst y * fst x) with (a - b * (fst x * fst y)) by lra. lra. }
  rewrite E0, rsum_prodl. cbn [fst snd].
  assert (H3 : rsum (fun y => rsum (fun x => snd x * snd y * pos (a - b * (fst x * fst y))) l1) l2'
     <= rsum (fun x => rsum (fun y => snd x * snd y * pos (a - b * (fst x * fst y))) l2) l1).
  { rewrite (rsum_swap _ l1 l2). eapply rsum_Forall2; [exact F|].
    intros y' y [E [R0 R1]]. apply rsum_le. intros x Hx. rewrite E.
    apply Rmult_le_compat_r; [apply pos_nonneg|].
    destruct (Hl1 x Hx). apply Rmult_le_compat_l; assumption. }
  replace (rsum snd l2') with (1 - inf2) by lra. nra.
Qed.
