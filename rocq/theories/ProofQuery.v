(** Queries on pmfs: delta, vectorised delta, epsilon. *)
From Verif Require Import Base XReal Exn PyDict ModelCommon ModelPmf SpecDP SpecPmf
  ProofDP ProofDict ProofPmf ProofCompose ProofCompose2.
From Coq Require Import Permutation Sorted.

(** ** the curve of a list of (loss, probability) *)
Definition F (inf : R) (lps : list (R * R)) (e : R) : R :=
  inf + rsum (fun lp => snd lp * pos (1 - exp (e - fst lp))) lps.

Lemma gain_pos e l : pos (1 - exp (e - l)) = if Rltb e l then 1 - exp (e - l) else 0.
Proof.
  rcase.
  - apply pos_eq. assert (exp (e - l) < exp 0) by (apply exp_increasing; lra). rewrite exp_0 in *; lra.
  - apply pos_0. assert (exp 0 <= exp (e - l)) by (apply exp_le; lra). rewrite exp_0 in *; lra.
Qed.

Lemma delta_F inf lps e : delta_for_epsilon inf lps (Fin e) = F inf lps e.
Proof.
  unfold delta_for_epsilon, F. f_equal. rewrite rsum_filter. apply rsum_ext. intros [l p] _.
  cbn [fst snd]. rewrite gain_pos. destruct (Rltb e l); lra.
Qed.

Lemma F_rev inf lps e : F inf (rev lps) e = F inf lps e.
Proof. unfold F. rewrite rsum_rev. reflexivity. Qed.

Definition okp (lps : list (R * R)) := forall lp, In lp lps -> 0 <= snd lp.

Lemma F_mono inf lps e1 e2 : okp lps -> e1 <= e2 -> F inf lps e2 <= F inf lps e1.
Proof.
  intros Hp He. unfold F. apply Rplus_le_compat_l, rsum_le. intros lp Hin.
  apply Rmult_le_compat_l; [auto|]. apply pos_le.
  assert (exp (e1 - fst lp) <= exp (e2 - fst lp)) by (apply exp_le; lra). lra.
Qed.

Lemma F_ge_inf inf lps e : okp lps -> inf <= F inf lps e.
Proof.
  intros Hp. unfold F. assert (0 <= rsum (fun lp => snd lp * pos (1 - exp (e - fst lp))) lps); [|lra].
  apply rsum_nonneg. intros; apply Rmult_le_pos; [auto | apply pos_nonneg].
Qed.

(** consumed part [c]: its linear (untruncated) curve *)
Definition up (inf : R) (c : list (R * R)) : R := inf + rsum snd c.
Definition low (c : list (R * R)) : R := rsum (fun lp => snd lp * exp (- fst lp)) c.

Lemma linear_curve inf c e :
  up inf c - exp e * low c = inf + rsum (fun lp => snd lp * (1 - exp (e - fst lp))) c.
Proof.
  unfold up, low. rewrite <- rsum_scal.
  replace (inf + rsum snd c - rsum (fun a => exp e * (snd a * exp (- fst a))) c)
    with (inf + (rsum snd c - rsum (fun a => exp e * (snd a * exp (- fst a))) c)) by lra.
  f_equal. rewrite <- rsum_minus. apply rsum_ext. intros lp _.
  unfold Rminus at 3. rewrite exp_plus. lra.
Qed.

Lemma F_ge_linear inf c rl e : okp (c ++ rl) -> up inf c - exp e * low c <= F inf (c ++ rl) e.
Proof.
  intros Hp. rewrite linear_curve. unfold F. rewrite rsum_app.
  assert (0 <= rsum (fun lp => snd lp * pos (1 - exp (e - fst lp))) rl).
  { apply rsum_nonneg. intros; apply Rmult_le_pos; [apply Hp, in_or_app; auto | apply pos_nonneg]. }
  assert (rsum (fun lp => snd lp * (1 - exp (e - fst lp))) c <=
          rsum (fun lp => snd lp * pos (1 - exp (e - fst lp))) c).
  { apply rsum_le. intros lp Hin. apply Rmult_le_compat_l; [apply Hp, in_or_app; auto | apply pos_ge]. }
  lra.
Qed.

Lemma F_eq_linear inf c rl e :
  (forall lp, In lp c -> e <= fst lp) -> (forall lp, In lp rl -> fst lp <= e) ->
  F inf (c ++ rl) e = up inf c - exp e * low c.
Proof.
  intros Hc Hr. rewrite linear_curve. unfold F. rewrite rsum_app.
  rewrite (rsum_zero (fun lp => snd lp * pos (1 - exp (e - fst lp))) rl).
  - rewrite Rplus_0_r. f_equal. apply rsum_ext. intros lp Hin. f_equal. apply pos_eq.
    assert (exp (e - fst lp) <= exp 0) by (apply exp_le; specialize (Hc lp Hin); lra).
    rewrite exp_0 in *. lra.
  - intros lp Hin. rewrite pos_0; [lra|].
    assert (exp 0 <= exp (e - fst lp)) by (apply exp_le; specialize (Hr lp Hin); lra).
    rewrite exp_0 in *. lra.
Qed.

Definition descl (l : list (R * R)) := StronglySorted (fun x y => fst y <= fst x) l.

Lemma StronglySorted_app {A} (R0 : A -> A -> Prop) l1 l2 : StronglySorted R0 (l1 ++ l2) ->
  StronglySorted R0 l1 /\ StronglySorted R0 l2 /\ forall x y, In x l1 -> In y l2 -> R0 x y.
Proof.
  induction l1 as [|a l1 IH]; simpl; intros H.
  - split; [constructor | split; [assumption | contradiction]].
  - inversion H; subst. destruct (IH H2) as (S1 & S2 & S3). rewrite Forall_forall in H3.
    split; [constructor; [assumption|] | split; [assumption|]].
    + apply Forall_forall. intros; apply H3, in_or_app; auto.
    + intros x y [<-|Hx] Hy; [apply H3, in_or_app; auto | auto].
Qed.

Lemma StronglySorted_rev {A} (R0 : A -> A -> Prop) l : StronglySorted R0 l ->
  StronglySorted (fun x y => R0 y x) (rev l).
Proof.
  induction 1 as [|a l S IH Fa]; simpl; [constructor|].
  assert (H : forall l1 x, StronglySorted (fun x y => R0 y x) l1 ->
     (forall y, In y l1 -> R0 x y) -> StronglySorted (fun x y => R0 y x) (l1 ++ [x])).
  { clear. induction l1 as [|y l1 IH]; simpl; intros x S H.
    - constructor; [constructor | constructor].
    - inversion S; subst. constructor; [apply IH; auto|].
      rewrite Forall_forall in *. intros z Hz. apply in_app_or in Hz.
      destruct Hz as [Hz|[<-|[]]]; [auto|]. apply H; auto. }
  apply H; [assumption|]. intros y Hy. rewrite Forall_forall in Fa. apply Fa, in_rev, Hy.
Qed.

Lemma descl_tail c lp0 rl' lp : descl (c ++ lp0 :: rl') -> In lp rl' -> fst lp <= fst lp0.
Proof.
  intros Hd Hin. destruct (StronglySorted_app _ _ _ Hd) as (_ & Hd2 & _).
  inversion Hd2 as [|? ? ? HF]; subst. rewrite Forall_forall in HF. auto.
Qed.

(** ** C14 *)
Definition ePos (c : list (R * R)) delta inf : Prop :=
  c = [] \/ exists L, (forall lp, In lp c -> L <= fst lp) /\ (exists lp, In lp c /\ fst lp = L) /\
               up inf c - exp L * low c <= delta.

Lemma low_nonneg c : okp c -> 0 <= low c.
Proof.
  intros H. apply rsum_nonneg. intros; apply Rmult_le_pos; [auto | apply exp_pos_nonneg].
Qed.

Lemma low_zero c inf : okp c -> low c = 0 -> up inf c = inf.
Proof.
  intros Hp H. unfold up. rewrite (rsum_zero snd c); [lra|]. intros lp Hin.
  assert (snd lp * exp (- fst lp) = 0).
  { apply (rsum_pos_ex (fun lp => snd lp * exp (- fst lp)) c); auto.
    - intros; apply Rmult_le_pos; [auto | apply exp_pos_nonneg].
    - unfold low in H. lra. }
  apply Rmult_integral in H0. pose proof (exp_pos (- fst lp)). destruct H0; lra.
Qed.

Lemma okp_app c rl : okp (c ++ rl) -> okp c /\ okp rl.
Proof. intros H. split; intros lp Hin; apply H, in_or_app; auto. Qed.

(** when the scan stops with the crossing inside the current segment *)
Lemma eps_finish_ok inf delta c rl :
  inf <= delta -> okp (c ++ rl) -> descl (c ++ rl) -> ePos c delta inf ->
  (rl = [] \/ (exists lp0 rl', rl = lp0 :: rl' /\ delta < up inf c /\ 0 < low c /\
              fst lp0 <= ln ((up inf c - delta) / low c))) ->
  exists e, eps_finish (up inf c) (low c) delta = Ok (Fin e) /\ 0 <= e /\
    F inf (c ++ rl) e <= delta /\ forall e', 0 <= e' < e -> delta < F inf (c ++ rl) e'.
Proof.
  intros Hi Hp Hd Hc Hr. destruct (okp_app _ _ Hp) as [Hpc Hpr].
  destruct (StronglySorted_app _ _ _ Hd) as (_ & _ & Hcr).
  unfold eps_finish. pose proof (low_nonneg c Hpc) as HL.
  assert (Crossing : 0 < low c -> delta < up inf c ->
     let e := ln ((up inf c - delta) / low c) in
     up inf c - exp e * low c = delta /\ (forall lp, In lp c -> e <= fst lp)).
  { intros HL0 HU e. assert (Q : 0 < (up inf c - delta) / low c) by (apply Rdiv_lt_0_compat; lra).
    assert (Ee : exp e * low c = up inf c - delta).
    { unfold e. rewrite exp_ln by assumption. field. lra. }
    split; [lra|]. intros lp Hin. destruct Hc as [->|(L & HL1 & _ & HL2)]; [contradiction|].
    apply Rle_trans with L; [|apply HL1; assumption].
    apply exp_le_inv2. apply Rmult_le_reg_r with (low c); lra. }
  destruct (Rleb_spec (up inf c) (low c + delta)) as [H0|H0].
  - exists 0. split; [reflexivity|]. split; [lra|]. split; [|intros; lra].
    destruct Hr as [->|(lp0 & rl' & -> & HU & HL0 & Hln)].
    + rewrite app_nil_r in *. destruct Hc as [->|(L & HL1 & (lpL & HinL & EL) & HL2)].
      * unfold F. simpl. lra.
      * destruct (Rle_dec 0 L) as [HL0|HL0].
        -- rewrite <- (app_nil_r c). rewrite F_eq_linear.
           ++ rewrite exp_0. lra.
           ++ intros lp Hin. specialize (HL1 lp Hin). lra.
           ++ contradiction.
        -- eapply Rle_trans; [apply (F_mono inf c L 0); [assumption | lra]|].
           rewrite <- (app_nil_r c). rewrite F_eq_linear; [assumption | assumption | contradiction].
    + destruct (Crossing HL0 HU) as [C1 C2]. remember (ln ((up inf c - delta) / low c)) as e eqn:Ee.
      assert (He : e <= 0).
      { apply exp_le_inv2. rewrite exp_0. apply Rmult_le_reg_r with (low c); lra. }
      eapply Rle_trans; [apply (F_mono inf _ e 0); [assumption | lra]|].
      rewrite F_eq_linear; [lra | assumption |].
      intros lp [<-|Hin]; [assumption|].
      pose proof (descl_tail _ _ _ _ Hd Hin). lra.
  - assert (HL0 : 0 < low c).
    { destruct (Req_dec (low c) 0) as [Z|]; [|lra]. pose proof (low_zero c inf Hpc Z). lra. }
    rewrite Reqb_false by lra.
    destruct (Crossing HL0 ltac:(lra)) as [C1 C2]. remember (ln ((up inf c - delta) / low c)) as e eqn:Ee.
    exists e. split; [reflexivity|].
    assert (He : 0 < e).
    { destruct (Rlt_dec 0 e); [assumption|]. exfalso.
      assert (exp e <= exp 0) by (apply exp_le; lra). rewrite exp_0 in *. nra. }
    split; [lra|]. split.
    + rewrite F_eq_linear; [lra | assumption |]. intros lp Hin.
      destruct Hr as [->|(lp0 & rl' & -> & HU & _ & Hln)]; [contradiction|].
      destruct Hin as [<-|Hin]; [assumption|].
      pose proof (descl_tail _ _ _ _ Hd Hin). lra.
    + intros e' He'. eapply Rlt_le_trans; [|apply F_ge_linear; assumption].
      assert (exp e' < exp e) by (apply exp_increasing; lra). nra.
Qed.

Lemma eps_loop_ok inf delta : inf <= delta -> forall rl c,
  okp (c ++ rl) -> descl (c ++ rl) -> ePos c delta inf ->
  exists e, eps_loop delta rl (up inf c) (low c) = Ok (Fin e) /\ 0 <= e /\
    F inf (c ++ rl) e <= delta /\
    ((inf < delta \/ forall lp, In lp (c ++ rl) -> 0 < snd lp) ->
     forall e', 0 <= e' < e -> delta < F inf (c ++ rl) e').
Proof.
  intros Hi. induction rl as [|[loss prob] rl IH]; intros c Hp Hd Hc.
  - cbn [eps_loop]. destruct (eps_finish_ok inf delta c [] Hi Hp Hd Hc (or_introl eq_refl))
      as (e & E1 & E2 & E3 & E4). exists e. auto.
  - cbn [eps_loop]. destruct (okp_app _ _ Hp) as [Hpc Hpr].
    destruct (Rltb delta (up inf c) && Rltb 0 (low c) &&
              Rleb loss (ln ((up inf c - delta) / low c)))%bool eqn:B.
    + apply andb_prop in B. destruct B as [B B3]. apply andb_prop in B. destruct B as [B1 B2].
      destruct (Rltb_spec delta (up inf c)); [|discriminate].
      destruct (Rltb_spec 0 (low c)); [|discriminate].
      destruct (Rleb_spec loss (ln ((up inf c - delta) / low c))); [|discriminate].
      destruct (eps_finish_ok inf delta c ((loss, prob) :: rl) Hi Hp Hd Hc) as (e & E1 & E2 & E3 & E4).
      { right. exists (loss, prob), rl. auto. }
      exists e. auto.
    + (* continue *)
      set (c' := c ++ [(loss, prob)]).
      assert (EU : up inf c + prob = up inf c').
      { unfold up, c'. rewrite rsum_app. simpl. lra. }
      assert (EL : low c + exp (- loss) * prob = low c').
      { unfold low, c'. rewrite rsum_app. simpl. lra. }
      rewrite EU, EL.
      assert (EA : c ++ (loss, prob) :: rl = c' ++ rl) by (unfold c'; rewrite <- app_assoc; reflexivity).
      rewrite EA in *.
      destruct (StronglySorted_app _ _ _ Hd) as (Hdc' & _ & Hc'r).
      assert (HLs : forall lp, In lp c' -> loss <= fst lp).
      { intros lp Hin. unfold c' in *. destruct (StronglySorted_app _ _ _ Hdc') as (_ & _ & X).
        apply in_app_or in Hin. destruct Hin as [Hin|[<-|[]]]; [|simpl; lra].
        apply (X lp (loss, prob)); [assumption | left; reflexivity]. }
      assert (Hpc' : okp c') by (apply (okp_app _ _ Hp)).
      assert (LIN : up inf c' - exp loss * low c' <= delta).
      { assert (X : up inf c' - exp loss * low c' = up inf c - exp loss * low c).
        { rewrite !linear_curve. unfold c'. rewrite rsum_app. cbn [rsum fst snd].
          replace (loss - loss) with 0 by lra. rewrite exp_0. lra. }
        rewrite X. pose proof (low_nonneg c Hpc). pose proof (exp_pos loss).
        destruct (Rltb_spec delta (up inf c)); [|nra].
        destruct (Rltb_spec 0 (low c)).
        - simpl in B. destruct (Rleb_spec loss (ln ((up inf c - delta) / low c))); [discriminate|].
          assert (Q : 0 < (up inf c - delta) / low c) by (apply Rdiv_lt_0_compat; lra).
          assert (exp (ln ((up inf c - delta) / low c)) < exp loss) by (apply exp_increasing; lra).
          rewrite exp_ln in H1 by assumption.
          apply Rmult_lt_compat_r with (r := low c) in H1; [|assumption].
          replace ((up inf c - delta) / low c * low c) with (up inf c - delta) in H1 by (field; lra).
          lra.
        - assert (Z : low c = 0) by lra. pose proof (low_zero c inf Hpc Z). lra. }
      destruct (Rleb delta (up inf c') && Reqb (low c') 0)%bool eqn:B2.
      * apply andb_prop in B2. destruct B2 as [B21 B22].
        destruct (Rleb_spec delta (up inf c')) as [HU'|]; [|discriminate].
        destruct (Reqb_spec (low c') 0) as [HZ|]; [|discriminate].
        assert (EI : up inf c' = inf) by (apply low_zero; assumption).
        exists (Rmax 0 loss). split; [reflexivity|]. split; [apply Rmax_l|]. split.
        -- apply Rle_trans with (F inf (c' ++ rl) loss).
           ++ apply F_mono; [assumption | apply Rmax_r].
           ++ rewrite F_eq_linear; [lra | assumption|].
              intros lp Hin. apply (Hc'r (loss, prob) lp); [|assumption].
              unfold c'. apply in_or_app; right; left; reflexivity.
        -- intros [Hlt|Hpos]; [lra|]. exfalso.
           assert (0 < prob) by (apply (Hpos (loss, prob)); rewrite <- EA; apply in_or_app; right; left; reflexivity).
           pose proof (low_nonneg c Hpc). pose proof (exp_pos (- loss)). rewrite <- EL in HZ. nra.
      * apply IH; [assumption | assumption|].
        right. exists loss. split; [assumption|]. split; [|assumption].
        exists (loss, prob). split; [unfold c'; apply in_or_app; right; left; reflexivity | reflexivity].
Qed.

Lemma epsilon_for_delta_ok inf rl delta : okp rl -> descl rl ->
  (epsilon_for_delta inf rl delta = Ok PInf /\ delta < inf) \/
  (inf <= delta /\ exists e, epsilon_for_delta inf rl delta = Ok (Fin e) /\ 0 <= e /\
    F inf rl e <= delta /\
    ((inf < delta \/ forall lp, In lp rl -> 0 < snd lp) ->
     forall e', 0 <= e' < e -> delta < F inf rl e')).
Proof.
  intros Hp Hd. unfold epsilon_for_delta. rcase; [left; auto | right].
  split; [lra|].
  destruct (eps_loop_ok inf delta ltac:(lra) rl [] Hp Hd (or_introl eq_refl)) as (e & E & R).
  exists e. split; [|exact R]. rewrite <- E. f_equal; unfold up, low; simpl; lra.
Qed.

(** the two representations hand over the same descending list *)
Lemma rev_zrange lo n : rev (zrange lo n) = map (fun i => (lo + Z.of_nat n - 1 - Z.of_nat i)%Z) (seq 0 n).
Proof.
  revert lo. induction n as [|n IH]; intros lo; [reflexivity|].
  replace (S n) with (n + 1)%nat at 1 by lia. rewrite zrange_app, rev_app_distr.
  cbn [zrange rev app]. cbn [seq map]. f_equal; [lia|].
  rewrite IH, <- seq_shift, map_map. apply map_ext. intros. lia.
Qed.

Lemma rev_combine {A B} (l1 : list A) (l2 : list B) : length l1 = length l2 ->
  rev (combine l1 l2) = combine (rev l1) (rev l2).
Proof.
  revert l2. induction l1 as [|x l1 IH]; intros [|y l2] H; simpl in *; try discriminate; [reflexivity|].
  rewrite IH by lia.
  assert (HL : length (rev l1) = length (rev l2)) by (rewrite !rev_length; lia).
  revert HL. generalize (rev l1) (rev l2). clear.
  induction l as [|a l IH]; intros [|b l'] H; simpl in *; try discriminate; [reflexivity|].
  rewrite IH by lia. reflexivity.
Qed.

Lemma combine_map_l {A A' B} (f : A -> A') (l1 : list A) (l2 : list B) :
  combine (map f l1) l2 = map (fun xy => (f (fst xy), snd xy)) (combine l1 l2).
Proof.
  revert l2. induction l1 as [|x l1 IH]; intros [|y l2]; simpl; auto. rewrite IH. reflexivity.
Qed.

Lemma reversed_losses_eq p : reversed_losses p = rev (loss_floats p).
Proof.
  unfold reversed_losses. destruct (pmf_body p) as [d|lo l] eqn:E; [reflexivity|].
  unfold loss_floats, losses_probs. rewrite E.
  rewrite <- map_rev, rev_combine by apply zrange_length. rewrite rev_zrange.
  rewrite !combine_map_l, !map_map. cbn [fst snd].
  apply map_ext. intros [i v]. cbn [fst snd]. f_equal.
  rewrite !minus_IZR, <- INR_IZR_INZ. lra.
Qed.

Lemma loss_floats_desc p : wf p -> descl (rev (loss_floats p)) /\ okp (rev (loss_floats p)).
Proof.
  intros W. split.
  - unfold descl. apply (StronglySorted_rev (fun x y => fst x <= fst y)).
    pose proof (losses_sorted p W) as S. destruct W as (Hd & _). unfold loss_floats.
    induction (losses_probs p) as [|kv l IH]; simpl in *; [constructor|].
    inversion S; subst. constructor; [auto|]. rewrite Forall_forall in *.
    intros x Hx. apply in_map_iff in Hx. destruct Hx as (kv' & <- & Hin). simpl.
    assert (fst kv < fst kv')%Z by (apply H2, in_map, Hin). apply IZR_lt in H. nra.
  - intros lp Hin. apply in_rev in Hin. unfold loss_floats in Hin.
    apply in_map_iff in Hin. destruct Hin as (kv & <- & Hin). simpl.
    eapply losses_nonneg; eassumption.
Qed.

Lemma pmf_delta_F p e : pmf_delta p (Fin e) = F (infinity_mass p) (rev (loss_floats p)) e.
Proof. unfold pmf_delta. rewrite delta_F, F_rev. reflexivity. Qed.

Lemma pmf_epsilon_ok p delta : wf p ->
  (pmf_epsilon p delta = Ok PInf /\ delta < infinity_mass p) \/
  (infinity_mass p <= delta /\ exists e, pmf_epsilon p delta = Ok (Fin e) /\ 0 <= e /\
    pmf_delta p (Fin e) <= delta /\
    ((infinity_mass p < delta \/ forall kv, In kv (losses_probs p) -> 0 < snd kv) ->
     forall e', 0 <= e' < e -> delta < pmf_delta p (Fin e'))).
Proof.
  intros W. unfold pmf_epsilon. rewrite reversed_losses_eq.
  destruct (loss_floats_desc p W) as [Hd Hp].
  destruct (epsilon_for_delta_ok (infinity_mass p) _ delta Hp Hd) as [H|(H & e & E1 & E2 & E3 & E4)];
    [left; assumption | right].
  split; [assumption|]. exists e. rewrite pmf_delta_F. repeat split; auto.
  intros HC e' He'. rewrite pmf_delta_F. apply E4; [|assumption].
  destruct HC as [HC|HC]; [left; assumption | right].
  intros lp Hin. apply in_rev in Hin. unfold loss_floats in Hin. apply in_map_iff in Hin.
  destruct Hin as (kv & <- & Hin). apply HC. assumption.
Qed.

(** ** C13: vectorised queries *)
Definition xle (x y : xr) : Prop := xleb x y = true.

Lemma eps_sorted_strong l : (forall e, In e l -> e <> NaN) -> eps_sorted l = true ->
  StronglySorted xle l.
Proof.
  intros HN H. assert (HS : Sorted xle l).
  { induction l as [|x l IH]; [constructor|]. constructor.
    - apply IH; [intros; apply HN; right; assumption|].
      destruct l; [reflexivity|]. simpl in H. apply andb_prop in H. apply H.
    - destruct l as [|y l]; constructor. simpl in H. apply andb_prop in H. destruct H as [H _].
      unfold xle. destruct x, y; simpl in *; try reflexivity; try discriminate; assumption. }
  apply Sorted_StronglySorted; [|assumption].
  intros x y z. unfold xle. destruct x, y, z; simpl; intros; try reflexivity; try discriminate.
  destruct (Rleb_spec r r0); [|discriminate]. destruct (Rleb_spec r0 r1); [|discriminate].
  apply Rleb_true. lra.
Qed.

Definition below (e : xr) (x : R) : Prop :=   (* x > e *)
  match e with Fin r => r < x | MInf => True | _ => False end.

Lemma delta_consumed inf c rl e : e <> PInf -> e <> NaN ->
  (forall lp, In lp c -> below e (fst lp)) ->
  (rl = [] \/ (exists lp0 rl', rl = lp0 :: rl' /\ xleb (Fin (fst lp0)) e = true)) ->
  descl (c ++ rl) ->
  delta_for_epsilon inf (rev (c ++ rl)) e = vec_delta inf (up inf c) (low c) e.
Proof.
  intros H1 H2 Hc Hr Hd. destruct e as [e| | |]; try congruence.
  - rewrite delta_F, F_rev. cbn [vec_delta]. apply F_eq_linear.
    + intros lp Hin. left. apply (Hc lp Hin).
    + destruct Hr as [->|(lp0 & rl' & -> & Hle)]; [contradiction|].
      simpl in Hle. destruct (Rleb_spec (fst lp0) e); [|discriminate].
      intros lp [<-|Hin]; [assumption|].
      pose proof (descl_tail _ _ _ _ Hd Hin). lra.
  - cbn [delta_for_epsilon vec_delta]. unfold up. f_equal. rewrite rsum_rev.
    destruct Hr as [->|(lp0 & rl' & -> & Hle)]; [rewrite app_nil_r; reflexivity | discriminate].
Qed.

Lemma vec_loop_ok inf reps : forall c rl acc,
  descl (c ++ rl) -> (forall e, In e reps -> e <> NaN) ->
  StronglySorted (fun x y => xle y x) reps ->
  (forall e, In e reps -> e <> PInf -> forall lp, In lp c -> below e (fst lp)) ->
  vec_loop inf reps rl (up inf c) (low c) acc =
  map (delta_for_epsilon inf (rev (c ++ rl))) (rev reps) ++ acc.
Proof.
  induction reps as [|e reps IH]; intros c rl acc Hd HN HS Hb; [reflexivity|].
  assert (HN' : forall e, In e reps -> e <> NaN) by (intros; apply HN; right; assumption).
  assert (HS' : StronglySorted (fun x y => xle y x) reps) by (inversion HS; assumption).
  assert (HF : forall e', In e' reps -> xle e' e).
  { inversion HS; subst. rewrite Forall_forall in H2. assumption. }
  assert (Hb' : forall e, In e reps -> e <> PInf -> forall lp, In lp c -> below e (fst lp))
    by (intros; apply Hb; auto; right; assumption).
  assert (Hgen : e <> PInf -> vec_loop inf (e :: reps) rl (up inf c) (low c) acc =
             map (delta_for_epsilon inf (rev (c ++ rl))) (rev (e :: reps)) ++ acc).
  { intros HnP. assert (HnN : e <> NaN) by (apply HN; left; reflexivity).
    assert (Hbc := Hb e (or_introl eq_refl) HnP). clear Hb.
    revert c Hd Hb' Hbc. induction rl as [|[loss prob] rl IHr]; intros c Hd Hb' Hbc.
    - transitivity (vec_loop inf reps [] (up inf c) (low c) (vec_delta inf (up inf c) (low c) e :: acc)).
      { destruct e; try congruence; reflexivity. }
      rewrite IH by assumption. cbn [rev]. rewrite map_app, <- app_assoc. cbn [map app].
      rewrite <- (delta_consumed inf c [] e); auto.
    - destruct (xleb (Fin loss) e) eqn:B.
      + transitivity (vec_loop inf reps ((loss, prob) :: rl) (up inf c) (low c)
                       (vec_delta inf (up inf c) (low c) e :: acc)).
        { destruct e; try congruence; cbn [vec_loop]; rewrite B; reflexivity. }
        rewrite IH by assumption. cbn [rev]. rewrite map_app, <- app_assoc. cbn [map app].
        rewrite <- (delta_consumed inf c ((loss, prob) :: rl) e); auto.
        right. exists (loss, prob), rl. auto.
      + transitivity (vec_loop inf (e :: reps) rl (up inf c + prob) (low c + prob * exp (- loss)) acc).
        { destruct e; try congruence; cbn [vec_loop]; rewrite B; reflexivity. }
        assert (EA : c ++ (loss, prob) :: rl = (c ++ [(loss, prob)]) ++ rl)
          by (rewrite <- app_assoc; reflexivity).
        rewrite EA in *.
        replace (up inf c + prob) with (up inf (c ++ [(loss, prob)])) by (unfold up; rewrite rsum_app; simpl; lra).
        replace (low c + prob * exp (- loss)) with (low (c ++ [(loss, prob)])) by (unfold low; rewrite rsum_app; simpl; lra).
        assert (Hbl : below e loss).
        { destruct e; simpl in *; try congruence; try exact I. destruct (Rleb_spec loss r); [discriminate | lra]. }
        apply IHr; [assumption | |].
        * intros e' He' HnP' lp Hin. apply in_app_or in Hin. destruct Hin as [Hin|[<-|[]]]; [auto|].
          specialize (HF e' He'). specialize (HN' e' He'). simpl.
          unfold xle in HF. destruct e', e; simpl in *; try congruence; try exact I; try contradiction.
          destruct (Rleb_spec r r0); [lra | discriminate].
        * intros lp Hin. apply in_app_or in Hin. destruct Hin as [Hin|[<-|[]]]; auto. }
  destruct e; try (apply Hgen; congruence).
  cbn [vec_loop]. rewrite IH by assumption. cbn [rev]. rewrite map_app, <- app_assoc. reflexivity.
Qed.

Lemma vectorized_ok p eps : wf p -> (forall e, In e eps -> e <> NaN) ->
  pmf_delta_vectorized p eps =
  if eps_sorted eps then Ok (map (pmf_delta p) eps) else Err ValueError.
Proof.
  intros W HN. unfold pmf_delta_vectorized, delta_for_epsilon_vectorized.
  destruct (eps_sorted eps) eqn:B; [|reflexivity]. f_equal.
  assert (HS := eps_sorted_strong eps HN B).
  destruct (loss_floats_desc p W) as [Hd _].
  assert (H := vec_loop_ok (infinity_mass p) (rev eps) [] (rev (loss_floats p)) []).
  replace (up (infinity_mass p) []) with (infinity_mass p) in H by (unfold up; simpl; lra).
  replace (low []) with 0 in H by reflexivity.
  rewrite H.
  - rewrite app_nil_r, rev_involutive. cbn [app]. rewrite rev_involutive. reflexivity.
  - exact Hd.
  - intros e He. apply HN. apply in_rev. assumption.
  - apply (StronglySorted_rev xle). assumption.
  - contradiction.
Qed.
