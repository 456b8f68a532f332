(** The accuracy of composed distributions built from two probability mass functions. *)
From Verif Require Import Base XReal Exn PyDict ModelCommon ModelPmf ModelPld ModelMake SpecDP SpecPmf SpecPld SpecMake SpecNear
  ProofDP ProofPmf ProofMake ProofTwo ProofPld ProofPldApi ProofSelf ProofSelfDP ProofNear.

Section TwoNear.
  Context {O : Type} (eqb : O -> O -> bool) (eqb_ok : forall a b, eqb a b = true <-> a = b).

  Lemma trunc_nonneg bound (l : odict O) : 0 <= trunc_error bound l.
  Proof. unfold trunc_error. destruct bound; [|lra]. apply Rmult_le_pos; [apply pos_INR | apply Rlt_le, exp_pos]. Qed.

  Definition two_shift (pess : bool) (disc : R) : R := if pess then disc else 0.
  Definition two_slack (pess : bool) (bound : logp) (lower upper : odict O) : R :=
    if pess then match bound with Some b => INR (Nat.max (length lower) (length upper)) * exp b | None => 0 end else 0.

  Lemma slack_nonneg pess bound lower upper : 0 <= two_slack pess bound lower upper.
  Proof.
    unfold two_slack. destruct pess; [|lra]. destruct bound; [|lra].
    apply Rmult_le_pos; [apply pos_INR | apply Rlt_le, exp_pos].
  Qed.
  Lemma slack_lower bound lower upper : trunc_error bound lower <= two_slack true bound lower upper.
  Proof.
    unfold trunc_error, two_slack. destruct bound; [|lra]. apply Rmult_le_compat_r; [apply Rlt_le, exp_pos|].
    apply le_INR. lia.
  Qed.
  Lemma slack_upper bound lower upper : trunc_error bound upper <= two_slack true bound lower upper.
  Proof.
    unfold trunc_error, two_slack. destruct bound; [|lra]. apply Rmult_le_compat_r; [apply Rlt_le, exp_pos|].
    apply le_INR. lia.
  Qed.

  Lemma two_near lower upper pess disc bound sym D :
    0 < disc -> distribution lower -> distribution upper ->
    (sym = true -> forall eps, hockey_stick (swap (two_exper eqb upper lower)) eps = hockey_stick (two_exper eqb upper lower) eps) ->
    from_two_pmfs eqb lower upper pess disc bound sym = Ok D ->
    subproper_pld pess D /\
    pld_near (two_shift pess disc) (two_slack pess bound lower upper) D (two_exper eqb upper lower).
  Proof.
    intros Hd D1 D2 HS H. pose proof D1 as [N2 S2]. pose proof D2 as [N1 S1].
    assert (V : valid (two_exper eqb upper lower)) by (apply two_valid; assumption).
    assert (SP : subproper_pld pess D).
    { destruct (two_inv eqb _ _ _ _ _ _ _ H) as (SY & (i & d & ER & EC) & A).
      destruct (dir_total eqb eqb_ok _ _ _ _ _ _ _ _ Hd N1 N2 S1 ER EC) as (W & PE & DI & IN & T & _).
      destruct sym.
      - unfold subproper_pld, wf_pld. rewrite A. repeat split; auto; try apply W; try (apply sub_total; auto).
      - destruct A as (i' & d' & ER' & EC').
        destruct (dir_total eqb eqb_ok _ _ _ _ _ _ _ _ Hd N2 N1 S2 ER' EC') as (W' & PE' & DI' & IN' & T' & _).
        split; [split; [assumption|split; [assumption|congruence]]|].
        split; [apply sub_total; auto|]. split; [apply sub_total; auto|]. auto. }
    split; [assumption|]. split; [assumption|]. destruct pess.
    - destruct (two_pessimistic eqb eqb_ok _ _ _ _ _ _ Hd D1 D2 H) as (S & _ & _ & SY & _ & F & A).
      pose proof (slack_lower bound lower upper) as SL. pose proof (slack_upper bound lower upper) as SU.
      cbn [two_shift]. split; intros eps.
      + destruct (F eps). lra.
      + destruct sym.
        * destruct S as (_ & _ & S). rewrite (S SY), HS by reflexivity. destruct (F eps). lra.
        * destruct (A eq_refl eps). lra.
    - destruct (two_optimistic eqb eqb_ok _ _ _ _ _ _ Hd D1 D2 H) as (W & SY & F & _ & A).
      cbn [two_shift two_slack]. split; intros eps; rewrite Rminus_0_r, Rplus_0_r.
      + apply F.
      + destruct sym.
        * destruct W as (_ & _ & S). rewrite (S SY), HS by reflexivity. apply F.
        * apply (A eq_refl).
  Qed.

  (** n runs of the same pair: how far the reported delta can be from the truth *)
  Lemma two_self fast_len lower upper disc bound sym D n tail r E eps :
    (forall k, (k <= fast_len k)%nat) ->
    0 < disc -> distribution lower -> distribution upper ->
    (sym = true -> forall eps, hockey_stick (swap (two_exper eqb upper lower)) eps = hockey_stick (two_exper eqb upper lower) eps) ->
    from_two_pmfs eqb lower upper true disc bound sym = Ok D -> 0 <= tail ->
    pld_self_compose fast_len D n tail = Ok r ->
    interaction (repeat (eq (two_exper eqb upper lower)) (Z.to_nat n)) E ->
    dp_both E eps (pld_delta r (Fin eps)) /\
    forall d, dp_both E (eps - IZR n * disc) d ->
      pld_delta r (Fin eps) <= d + IZR n * two_slack true bound lower upper + 2 * tail.
  Proof.
    intros Hf Hd D1 D2 HS HD Ht H HI.
    destruct (two_near _ _ _ _ _ _ _ Hd D1 D2 HS HD) as [SP N].
    destruct (two_pessimistic eqb eqb_ok _ _ _ _ _ _ Hd D1 D2 HD) as (S & _).
    assert (B : pld_bounds D (two_exper eqb upper lower)).
    { apply (two_bounds eqb eqb_ok _ _ _ _ _ _ Hd D1 D2 HD). intros E1 e. rewrite HS by assumption. lra. }
    split.
    - refine (proj1 (self_adaptive fast_len D n tail r E Hf S Ht H _) eps). eapply inter_impl; [|exact HI]. intros X <-. exact B.
    - intros d Hdp. apply (near_self fast_len true D n tail r disc _ E eps d Hf SP); auto; try discriminate; try lra.
      + apply slack_nonneg.
      + eapply inter_impl; [|exact HI]. intros X <-. exact N.
  Qed.

  Lemma two_self_optimistic fast_len lower upper disc bound sym D n r E eps d :
    (forall k, (k <= fast_len k)%nat) ->
    0 < disc -> distribution lower -> distribution upper ->
    (sym = true -> forall eps, hockey_stick (swap (two_exper eqb upper lower)) eps = hockey_stick (two_exper eqb upper lower) eps) ->
    from_two_pmfs eqb lower upper false disc bound sym = Ok D ->
    pld_self_compose fast_len D n 0 = Ok r ->
    interaction (repeat (eq (two_exper eqb upper lower)) (Z.to_nat n)) E ->
    dp_both E eps d -> pld_delta r (Fin eps) <= d.
  Proof.
    intros Hf Hd D1 D2 HS HD H HI Hdp.
    destruct (two_near _ _ _ _ _ _ _ Hd D1 D2 HS HD) as [SP N].
    pose proof (near_self fast_len false D n 0 r 0 0 E eps d Hf SP) as K.
    rewrite Rmult_0_r, Rminus_0_r in K. 
    assert (pld_delta r (Fin eps) <= d + 0 + 2 * 0); [|lra].
    apply K; auto; try lra. eapply inter_impl; [|exact HI]. intros X <-. exact N.
  Qed.
End TwoNear.

(** ** an example *)

Definition bit_upper : odict Z := [(0%Z, Some (ln (2/3))); (1%Z, Some (ln (1/3)))].
Definition bit_lower : odict Z := [(0%Z, Some (ln (1/3))); (1%Z, Some (ln (2/3)))].
Lemma bit_distributions : distribution bit_upper /\ distribution bit_lower.
Proof.
  split; (split; [repeat constructor; cbn; intuition discriminate|]; cbn [bit_upper bit_lower rsum snd lexp];
    rewrite !exp_ln by lra; lra).
Qed.

Lemma size_psum p : 0 < psum p (fun _ => 1) -> pmf_size p <> 0%nat.
Proof.
  unfold psum, pmf_size. destruct (pmf_body p) as [[|x d]|lo [|x l]]; cbn [length]; try lia; cbn; lra.
Qed.

Lemma bit_swap eps : hockey_stick (swap (two_exper Z.eqb bit_upper bit_lower)) eps =
  hockey_stick (two_exper Z.eqb bit_upper bit_lower) eps.
Proof.
  unfold hockey_stick, two_exper. cbn. rewrite !exp_ln by lra. rewrite ?Rplus_0_r, ?Rplus_0_l, ?Rplus_0_r. lra.
Qed.

Lemma bit_late eps : ln 2 <= eps -> hockey_stick (two_exper Z.eqb bit_upper bit_lower) eps = 0.
Proof.
  intros H. assert (2 <= exp eps) by (rewrite <- (exp_ln 2) by lra; apply exp_le; assumption).
  unfold hockey_stick, two_exper. cbn. rewrite !exp_ln by lra. rewrite ?Rplus_0_r, ?Rplus_0_l, ?Rplus_0_r. rewrite !pos_0 by lra. lra.
Qed.

Lemma bit_run pess n : (1 <= n)%Z -> exists D r E,
  from_two_pmfs Z.eqb bit_lower bit_upper pess 1 None true = Ok D /\
  pld_self_compose (fun k => k) D n 0 = Ok r /\
  interaction (repeat (eq (two_exper Z.eqb bit_upper bit_lower)) (Z.to_nat n)) E /\
  subproper_pld pess D /\ pld_near (if pess then 1 else 0) 0 D (two_exper Z.eqb bit_upper bit_lower) /\
  exists r2, compose_all D [(D, 0)] = Ok r2.
Proof.
  intros Hn. destruct bit_distributions as [DU DL].
  destruct (two_total Z.eqb bit_lower bit_upper pess 1 None true Rlt_0_1) as [D HD].
  destruct (two_inv Z.eqb _ _ _ _ _ _ _ HD) as (SY & (i & d & ER & EC) & A).
  destruct DU as [N1 S1]. destruct DL as [N2 S2].
  destruct (dir_total Z.eqb Z.eqb_eq _ _ _ _ _ _ _ _ Rlt_0_1 N1 N2 S1 ER EC) as (W & PE & DI & IN & T & PR).
  specialize (PR (or_intror eq_refl)).
  destruct (two_near Z.eqb Z.eqb_eq bit_lower bit_upper pess 1 None true D Rlt_0_1
    (conj N2 S2) (conj N1 S1) (fun _ => bit_swap) HD) as [SP NR].
  replace (two_slack pess None bit_lower bit_upper) with 0 in NR by (destruct pess; reflexivity).
  assert (I0 : infinity_mass (pmf_remove D) = 0).
  { destruct NR as (_ & F & _).
    specialize (F (ln 2 + 1)). rewrite bit_late in F by (destruct pess; cbn; lra).
    rewrite pmf_delta_psum in F by assumption. unfold ptest in F.
    assert (0 <= psum (pmf_remove D) (hgain (discretization (pmf_remove D)) (ln 2 + 1)))
      by (apply psum_nonneg; [assumption | intros; apply hgain_nonneg]).
    pose proof (proj1 (proj2 W)). lra. }
  apply proper_total in PR. destruct PR as [_ TT]. unfold total in TT.
  destruct (pmf_self_total (fun k => k) (pmf_remove D) n 0) as [r Hr]; auto; try lra; try lia.
  { apply size_psum. lra. }
  assert (SZ : pmf_size (pmf_remove D) <> 0%nat) by (apply size_psum; lra).
  assert (HI : exists E, interaction (repeat (eq (two_exper Z.eqb bit_upper bit_lower)) (Z.to_nat n)) E).
  { induction (Z.to_nat n) as [|m [E IH]]; [exists silent; constructor|].
    exists (seq_exper E (fun _ => two_exper Z.eqb bit_upper bit_lower)).
    change (repeat (eq (two_exper Z.eqb bit_upper bit_lower)) (S m))
      with (eq (two_exper Z.eqb bit_upper bit_lower) :: repeat (eq (two_exper Z.eqb bit_upper bit_lower)) m).
    rewrite repeat_cons. constructor; auto. }
  destruct HI as [E HI].
  exists D, (new_pld r None), E. split; [assumption|]. split.
  { unfold pld_self_compose. rewrite Hr, SY. reflexivity. }
  split; [assumption|]. split; [assumption|]. split; [exact NR|].
  destruct (compose_total (pmf_remove D) (pmf_remove D) 0) as [r2 H2]; auto; try lra.
  exists (new_pld r2 None). cbn [compose_all]. unfold pld_compose. rewrite H2, SY. reflexivity.
Qed.
