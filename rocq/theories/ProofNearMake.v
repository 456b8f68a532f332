(** Randomised response and privacy parameters: how close their distributions are to the mechanisms. *)
From Verif Require Import Base XReal Exn PyDict TypesRelation ModelCommon ModelPmf ModelPld ModelMake SpecDP SpecPmf SpecPld SpecMake SpecNear
  ProofDP ProofDict ProofPmf ProofPld ProofPldApi ProofSelf ProofSelfDP ProofMake ProofTwo ProofRR ProofParams ProofNear ProofNearTwo.

Lemma rr_near p k pess disc rel D E : 0 < disc ->
  from_randomized_response p k pess disc rel = Ok D -> rr_pair rel p k E ->
  subproper_pld pess D /\ pld_near (if pess then disc else 0) 0 D E.
Proof.
  intros Hd H HE. destruct (rr_inv _ _ _ _ _ _ H) as (Hp & Hk & Hr & HD).
  assert (C := fun eps => rr_pair_curves rel p k E eps Hp Hk HE).
  assert (K : subproper_pld pess D /\ pld_near (two_shift pess disc) 0 D (rr_code rel p k)).
  { destruct rel; [congruence| |]; cbn [rr_code] in *.
    - destruct (rr_dist p k Hp Hk) as [D1 D2].
      destruct (two_near Z.eqb Z.eqb_eq _ _ _ _ _ _ _ Hd D2 D1
        (fun _ eps => rr_code_hs_swap p k Hp Hk eps) HD) as [S N]. split; [exact S|].
      replace (two_slack pess None (rr_lower p k) (rr_upper p k)) with 0 in N by (destruct pess; reflexivity). exact N.
    - destruct (sp_dist p k Hp Hk) as [D1 D2].
      destruct (two_near Z.eqb Z.eqb_eq _ _ _ _ _ _ _ Hd D2 D1 (fun F => False_ind _ (Bool.diff_false_true F)) HD) as [S N]. split; [exact S|].
      replace (two_slack pess None (sp_lower k) (sp_upper p k)) with 0 in N by (destruct pess; reflexivity). exact N. }
  destruct K as [S (V & N1 & N2)]. split; [exact S|].
  split; [apply (C 0)|]. unfold two_shift in *. split; intros eps.
  - rewrite <- (proj1 (C _)). apply N1.
  - rewrite <- (proj1 (proj2 (C _))). apply N2.
Qed.

Lemma rr_self fast_len p k pess disc rel D n tail r E eps d : (forall k, (k <= fast_len k)%nat) -> 0 < disc ->
  from_randomized_response p k pess disc rel = Ok D -> 0 <= tail -> (pess = false -> tail = 0) ->
  pld_self_compose fast_len D n tail = Ok r ->
  interaction (repeat (rr_pair rel p k) (Z.to_nat n)) E ->
  dp_both E (eps - IZR n * if pess then disc else 0) d ->
  pld_delta r (Fin eps) <= d + 2 * tail.
Proof.
  intros Hf Hd H Ht HT HS HI HE.
  assert (S : subproper_pld pess D).
  { destruct (rr_inv _ _ _ _ _ _ H) as (Hp & Hk & Hr & HD).
    destruct rel; [congruence| |].
    - apply (rr_near p k pess disc REPLACE_ONE D (rr_exper p k 0 1) Hd H).
      exists 0%Z, 1%Z. rewrite !buckets_In. repeat split; auto; lia.
    - apply (rr_near p k pess disc REPLACE_SPECIAL D (rr_special p k 0) Hd H).
      exists 0%Z. rewrite !buckets_In. repeat split; auto; lia. }
  assert (HI' : interaction (repeat (pld_near (if pess then disc else 0) 0 D) (Z.to_nat n)) E).
  { eapply inter_impl; [|exact HI]. intros E' HE'. apply (rr_near p k pess disc rel D E' Hd H HE'). }
  pose proof (near_self fast_len pess D n tail r (if pess then disc else 0) 0 E eps d Hf S) as K.
  replace (d + 2 * tail) with (d + IZR n * 0 + 2 * tail) by lra.
  apply K; auto; destruct pess; lra.
Qed.

Lemma worst_valid eps delta : 0 <= delta <= 1 -> valid (worst_mechanism eps delta).
Proof.
  intros Hd. pose proof (exp_pos eps) as X.
  assert (A : 0 <= exp eps / (1 + exp eps)) by (apply Rlt_le, Rdiv_lt_0_compat; lra).
  assert (B : 0 <= 1 / (1 + exp eps)) by (apply Rlt_le, Rdiv_lt_0_compat; lra).
  assert (S : exp eps / (1 + exp eps) + 1 / (1 + exp eps) = 1) by (field; lra).
  set (a := exp eps / (1 + exp eps)) in *. set (b := 1 / (1 + exp eps)) in *.
  assert (0 <= (1 - delta) * a) by (apply Rmult_le_pos; lra).
  assert (0 <= (1 - delta) * b) by (apply Rmult_le_pos; lra).
  assert (T : (1 - delta) * a + (1 - delta) * b = 1 - delta) by (rewrite <- Rmult_plus_distr_l, S; lra).
  split.
  - intros o _. cbn. fold a b. destruct o as [|[|[|o]]]; lra.
  - cbn. fold a b. lra.
Qed.

Lemma worst_curve eps delta e : 0 <= delta <= 1 ->
  hockey_stick (worst_mechanism eps delta) e = params_curve eps delta e /\
  hockey_stick (swap (worst_mechanism eps delta)) e = params_curve eps delta e.
Proof.
  intros Hd. pose proof (exp_pos eps) as X. pose proof (exp_pos e) as Y.
  assert (A : 0 <= (1 - delta) * (exp eps / (1 + exp eps))).
  { apply Rmult_le_pos; [lra|]. apply Rlt_le, Rdiv_lt_0_compat; lra. }
  assert (B : 0 <= (1 - delta) * (1 / (1 + exp eps))).
  { apply Rmult_le_pos; [lra|]. apply Rlt_le, Rdiv_lt_0_compat; lra. }
  assert (E1 : (1 - delta) / (1 + exp (- eps)) = (1 - delta) * (exp eps / (1 + exp eps))).
  { rewrite exp_Ropp. field. split; lra. }
  assert (E2 : (1 - delta) / (1 + exp eps) = (1 - delta) * (1 / (1 + exp eps))) by (field; lra).
  unfold params_curve. rewrite E1, E2. clear E1 E2.
  set (a := (1 - delta) * (exp eps / (1 + exp eps))) in *. set (b := (1 - delta) * (1 / (1 + exp eps))) in *.
  assert (F1 : exp (e - eps) * a = exp e * b).
  { unfold a, b, Rminus. rewrite exp_plus, exp_Ropp. field. split; lra. }
  assert (F2 : exp (e - - eps) * b = exp e * a).
  { unfold a, b. replace (e - - eps) with (e + eps) by lra. rewrite exp_plus. field. lra. }
  assert (P0 : pos (0 - exp e * delta) = 0) by (apply pos_0; nra).
  assert (P1 : pos (delta - exp e * 0) = delta) by (rewrite Rmult_0_r, Rminus_0_r; apply Rmax_right; lra).
  rewrite <- !pos_scal by assumption.
  replace (a * (1 - exp (e - eps))) with (a - exp e * b) by lra.
  replace (b * (1 - exp (e - - eps))) with (b - exp e * a) by lra.
  unfold hockey_stick. cbn. fold a b. split; rewrite P0, P1; lra.
Qed.

Lemma worst_dp eps delta : 0 <= eps -> 0 <= delta <= 1 -> dp_both (worst_mechanism eps delta) eps delta.
Proof.
  intros He Hd. destruct (worst_curve eps delta eps Hd) as [C1 C2].
  assert (Z : params_curve eps delta eps = delta).
  { unfold params_curve. rewrite (pos_0 (1 - exp (eps - eps))), (pos_0 (1 - exp (eps - - eps))); [lra| |].
    - assert (exp 0 <= exp (eps - - eps)) by (apply exp_le; lra). rewrite exp_0 in *. lra.
    - replace (eps - eps) with 0 by lra. rewrite exp_0. lra. }
  split; apply dp_iff_hockey; lra.
Qed.

Lemma params_near eps delta pp disc D : 0 < disc ->
  privacy_parameters eps delta = Ok pp -> from_privacy_parameters pp disc = Ok D ->
  subproper_pld true D /\ dp_both (worst_mechanism eps delta) eps delta /\
  pld_near disc 0 D (worst_mechanism eps delta) /\
  ((exists n, eps = IZR n * disc) -> pld_near 0 0 D (worst_mechanism eps delta)).
Proof.
  intros Hd HP H.
  destruct (params_ok _ _ _ _ _ Hd HP H) as (He & Hdl & S & PR & SY & DI & IM & PS).
  assert (EA : pmf_add D = pmf_remove D) by (apply S; assumption).
  assert (PE : pessimistic_estimate (pmf_remove D) = true) by apply S.
  assert (SU : subproper (pmf_remove D)).
  { apply sub_total. apply proper_total in PR. destruct PR as [W T]. split; [assumption | lra]. }
  split.
  { split; [split; [apply SU|]; rewrite EA; split; [apply SU | auto]|]. rewrite EA. auto. }
  split; [apply worst_dp; assumption|].
  pose proof (exp_pos eps). pose proof (exp_pos (- eps)).
  assert (A : 0 <= (1 - delta) / (1 + exp (- eps))) by (apply Rmult_le_pos; [lra | left; apply Rinv_0_lt_compat; lra]).
  assert (B : 0 <= (1 - delta) / (1 + exp eps)) by (apply Rmult_le_pos; [lra | left; apply Rinv_0_lt_compat; lra]).
  assert (K : forall c, (forall v, v = eps \/ v = - eps -> IZR (Rceil (v / disc)) * disc <= v + c) ->
    pld_near c 0 D (worst_mechanism eps delta)).
  { intros c HC. split; [apply worst_valid; assumption|].
    rewrite EA. assert (Q : forall e, pmf_delta (pmf_remove D) (Fin e) <= params_curve eps delta (e - c)).
    { intros e. rewrite pmf_delta_psum by apply S. unfold ptest. rewrite PS, DI, IM. unfold params_curve.
      assert (G : forall v, v = eps \/ v = - eps -> hgain disc e (Rceil (v / disc)) <= pos (1 - exp (e - c - v))).
      { intros v Hv. specialize (HC v Hv). unfold hgain. apply pos_le.
        assert (exp (e - c - v) <= exp (e - IZR (Rceil (v / disc)) * disc)) by (apply exp_le; lra). lra. }
      pose proof (Rmult_le_compat_l _ _ _ A (G eps (or_introl eq_refl))).
      pose proof (Rmult_le_compat_l _ _ _ B (G (- eps) (or_intror eq_refl))). lra. }
    split; intros e; rewrite Rplus_0_r; (eapply Rle_trans; [apply Q|]); right; symmetry; apply worst_curve; assumption. }
  split.
  - apply K. intros v _. pose proof (round_bounds true disc v Hd) as RB. cbn [round_fn] in RB. lra.
  - intros [n En]. apply K. intros v Hv.
    assert (exists m, v = IZR m * disc) as [m ->].
    { destruct Hv as [-> | ->]; [exists n; assumption | exists (- n)%Z; rewrite opp_IZR, En; lra]. }
    pose proof (round_exact true disc m Hd) as RE. cbn [round_fn] in RE. rewrite RE. lra.
Qed.

Lemma params_self fast_len eps delta pp disc D n tail r E c e d : (forall k, (k <= fast_len k)%nat) -> 0 < disc ->
  privacy_parameters eps delta = Ok pp -> from_privacy_parameters pp disc = Ok D -> 0 <= tail ->
  pld_self_compose fast_len D n tail = Ok r ->
  interaction (repeat (eq (worst_mechanism eps delta)) (Z.to_nat n)) E ->
  c = disc \/ (c = 0 /\ exists m, eps = IZR m * disc) ->
  dp_both E (e - IZR n * c) d ->
  pld_delta r (Fin e) <= d + 2 * tail.
Proof.
  intros Hf Hd HP H Ht HS HI Hc HE. destruct (params_near _ _ _ _ _ Hd HP H) as (S & _ & N1 & N2).
  assert (N : pld_near c 0 D (worst_mechanism eps delta)) by (destruct Hc as [-> | [-> G]]; auto).
  assert (C0 : 0 <= c) by (destruct Hc as [Hc | [Hc _]]; lra).
  replace (d + 2 * tail) with (d + IZR n * 0 + 2 * tail) by lra.
  apply (near_self fast_len true D n tail r c 0 E e d Hf S C0 (Rle_refl 0) Ht ltac:(discriminate) HS); [|exact HE].
  eapply inter_impl; [|exact HI]. intros E' <-. exact N.
Qed.

Lemma params_example : exists D r E, privacy_parameters 1 (1/10) = Ok (1, 1/10) /\
  from_privacy_parameters (1, 1/10) (1/2) = Ok D /\ pld_self_compose (fun k => k) D 2 0 = Ok r /\
  interaction (repeat (eq (worst_mechanism 1 (1/10))) 2) E /\ exists m, 1 = IZR m * (1/2).
Proof.
  assert (HP : privacy_parameters 1 (1/10) = Ok (1, 1/10)).
  { unfold privacy_parameters. rewrite !Rltb_false by lra. reflexivity. }
  pose proof (params_total 1 (1/10) (1/2) ltac:(lra)) as T. rewrite !Rleb_true in T by lra. cbn [andb] in T.
  destruct T as (pp & D & HP' & HD). rewrite HP in HP'. injection HP' as <-.
  assert (HR : exists r, pld_self_compose (fun k => k) D 2 0 = Ok r).
  { destruct (params_ok _ _ _ _ _ (ltac:(lra) : 0 < 1/2) HP HD) as (_ & _ & S & PR & SY & _ & IM & _).
    pose proof PR as TT. apply proper_total in TT. destruct TT as [W TT]. unfold total in TT.
    destruct (pmf_self_total (fun k => k) (pmf_remove D) 2 0) as [r Hr]; auto; try lra; try lia.
    { apply size_psum. lra. }
    exists (new_pld r None). unfold pld_self_compose. rewrite Hr, SY. reflexivity. }
  destruct HR as [r HR].
  set (W := worst_mechanism 1 (1/10)).
  exists D, r, (seq_exper (seq_exper silent (fun _ => W)) (fun _ => W)).
  split; [assumption|]. split; [assumption|]. split; [assumption|]. split; [|exists 2%Z; lra].
  change (repeat (eq W) 2) with (([] ++ [eq W]) ++ [eq W]).
  constructor; [constructor; [constructor|]|]; intros; reflexivity.
Qed.
