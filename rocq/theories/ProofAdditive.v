(** The methods of the additive noise mechanisms, for any noise with a known peak. *)
From Verif Require Import Base XReal Exn TypesAdjacency SpecDP SpecMech ModelPmf ModelMake ModelRdp ModelLog ModelMech ProofDP ProofLog ProofPeak ProofNoise.
Local Arguments Rltb : simpl never.
Local Arguments Rleb : simpl never.
Local Arguments Reqb : simpl never.

Lemma at_end_shift F x s : at_end F (xadd x (Fin s)) = at_end (fun y => F (y + s)) x.
Proof. destruct x; reflexivity. Qed.
Lemma at_end_sampled q P Q x : at_end (sampled q P Q) x = (1 - q) * at_end P x + q * at_end Q x.
Proof. destruct x; cbn; unfold sampled; try reflexivity; ring. Qed.
Lemma exp_np_log e x : 0 <= x -> xexp (xadd (Fin e) (np_log (Fin x))) = Fin (exp e * x).
Proof.
  intros H. destruct (Req_dec x 0) as [->|N].
  - rewrite np_log_0. cbn. f_equal. ring.
  - rewrite np_log_pos by lra. cbn. rewrite exp_plus, exp_ln by lra. reflexivity.
Qed.
Lemma np_logaddexp_log a b x y : 0 < a -> 0 < b -> 0 <= x -> 0 <= y ->
  np_logaddexp (xadd (Fin (ln a)) (np_log (Fin x))) (xadd (Fin (ln b)) (np_log (Fin y))) = np_log (Fin (a * x + b * y)).
Proof.
  intros Ha Hb Hx Hy. unfold np_logaddexp. rewrite !exp_np_log by assumption. cbn [xadd]. rewrite !exp_ln by assumption. reflexivity.
Qed.
Lemma clip_id x : 0 <= x <= 1 -> clip01 (Fin x) = Fin x.
Proof. intros H. cbn. rewrite Rmax_right, Rmin_right by lra. reflexivity. Qed.

(** [inverse0] is the method of the class without subsampling *)
Record fits (F : R -> R) (s : R) (pk : R -> xr) (cdf : xr -> R) (inverse0 : adjacency -> xr -> res xr) : Prop := {
  fit_shape : shape F s pk;
  fit_cdf : forall x, cdf x = at_end F x;
  fit_remove : forall l, inverse0 REMOVE (Fin l) = Ok (pk l);
  fit_add : forall l, inverse0 ADD (Fin l) = Ok (xadd (pk l) (Fin s));
  fit_minf : exists x, inverse0 REMOVE MInf = Ok x /\ x <> NaN /\ at_end F (xadd x (Fin s)) = 1;
  fit_pinf : exists x, inverse0 ADD PInf = Ok x /\ x <> NaN /\ at_end F (xadd x (Fin (- s))) = 0 }.

Definition peak (adj : adjacency) (q s : R) (pk : R -> xr) (l : R) : xr :=
  match adj with REMOVE => peak_remove q pk l | ADD => peak_add q s pk l end.
Lemma peak_1 adj s pk l : peak adj 1 s pk l = match adj with REMOVE => pk l | ADD => xadd (pk l) (Fin s) end.
Proof.
  pose proof (exp_pos l). destruct adj; cbn [peak].
  - unfold peak_add. rewrite Rltb_true by lra. do 2 f_equal.
    replace (exp l * 1 / (1 - exp l * (1 - 1))) with (exp l) by field. apply ln_exp.
  - unfold peak_remove. rewrite Rltb_true by lra. f_equal.
    replace ((exp l - (1 - 1)) / 1) with (exp l) by field. apply ln_exp.
Qed.

Section Additive.
  Context (F : R -> R) (s : R) (pk : R -> xr) (cdf : xr -> R) (inverse0 : adjacency -> xr -> res xr).
  Hypothesis HF : fits F s pk cdf inverse0.
  Context (q : R) (Hq : 0 < q <= 1).

  Lemma shape_at : is_cdf F.
  Proof. apply (fit_shape _ _ _ _ _ HF). Qed.
  Lemma cdf_pos x : 0 <= cdf x.
  Proof. rewrite (fit_cdf _ _ _ _ _ HF). destruct x; cbn; try lra. apply shape_at. Qed.
  Lemma upper_cdf adj x : a_mu_upper_cdf s q adj cdf x = at_end (upper_law adj F q s) x.
  Proof.
    destruct adj; cbn [a_mu_upper_cdf upper_law]; [apply (fit_cdf _ _ _ _ _ HF)|].
    unfold remove_upper. rewrite at_end_sampled. rewrite !(fit_cdf _ _ _ _ _ HF), at_end_shift.
    destruct (Reqb_spec q 1) as [->|]; [ring | reflexivity].
  Qed.
  Lemma lower_cdf adj x : x <> NaN -> a_mu_lower_log_cdf s q adj cdf x = np_log (Fin (at_end (lower_law adj F q s) x)).
  Proof.
    intros Nx. destruct adj; cbn [a_mu_lower_log_cdf lower_law]; unfold log_cdf.
    - unfold add_lower. rewrite at_end_sampled. change (fun x => F (x - s)) with (fun x => F (x + - s)).
      destruct (Reqb_spec q 1) as [->|Nq].
      + rewrite !(fit_cdf _ _ _ _ _ HF), at_end_shift. do 2 f_equal. ring.
      + unfold np_log1p. cbn [xadd]. rewrite (np_log_pos (1 + - q)) by lra. rewrite (np_log_pos q) by lra.
        rewrite np_logaddexp_log; [| lra | lra | apply cdf_pos | apply cdf_pos].
        rewrite !(fit_cdf _ _ _ _ _ HF), at_end_shift. reflexivity.
    - rewrite (fit_cdf _ _ _ _ _ HF). reflexivity.
  Qed.
  Lemma law_cdf adj : is_cdf (upper_law adj F q s) /\ is_cdf (lower_law adj F q s).
  Proof.
    pose proof shape_at. destruct adj; cbn; split; try assumption; [apply cdf_add | apply cdf_remove]; try assumption; lra.
  Qed.
  Lemma law_peaked adj eps : peaked (gap (upper_law adj F q s) (lower_law adj F q s) (exp eps)) (1 - exp eps) (peak adj q s pk eps).
  Proof.
    destruct adj; cbn [upper_law lower_law peak]; [apply add_peaked | apply remove_peaked]; try assumption; apply (fit_shape _ _ _ _ _ HF).
  Qed.
  Lemma law_uni adj eps : uni (gap (upper_law adj F q s) (lower_law adj F q s) (exp eps)) (peak adj q s pk eps).
  Proof.
    destruct adj; cbn [upper_law lower_law peak]; [apply add_uni | apply remove_uni]; try assumption; apply (fit_shape _ _ _ _ _ HF).
  Qed.
  (** the two cdfs at a point *)
  Definition delta_at adj eps (x : xr) : R := at_end (upper_law adj F q s) x - exp eps * at_end (lower_law adj F q s) x.
  Lemma delta_at_peak adj eps : divergence_is (upper_law adj F q s) (lower_law adj F q s) eps (delta_at adj eps (peak adj q s pk eps)).
  Proof. unfold delta_at. rewrite at_end_gap. apply divergence_peak, law_peaked. Qed.
  Lemma delta_at_best adj eps x : x <> NaN -> delta_at adj eps x <= delta_at adj eps (peak adj q s pk eps).
  Proof. intros N. unfold delta_at. rewrite !at_end_gap. apply peaked_best; [apply law_peaked | assumption]. Qed.
  Lemma at_end_01 P x : is_cdf P -> 0 <= at_end P x <= 1.
  Proof. intros (B & _). destruct x; cbn; try lra. apply B. Qed.
  Lemma delta_peak_01 adj eps : 0 <= delta_at adj eps (peak adj q s pk eps) <= 1.
  Proof.
    destruct (law_cdf adj) as [U L]. split.
    - eapply Rle_trans; [|apply (delta_at_best adj eps MInf); discriminate]. unfold delta_at. cbn. lra.
    - unfold delta_at. pose proof (at_end_01 _ (peak adj q s pk eps) U). pose proof (at_end_01 _ (peak adj q s pk eps) L).
      pose proof (exp_pos eps). nra.
  Qed.

  Lemma limit_val adj : q < 1 -> (match adj with ADD => xneg (np_log (Fin (1 - q))) | REMOVE => np_log (Fin (1 - q)) end) = Fin (loss_limit adj q).
  Proof. intros H. rewrite np_log_pos by lra. destruct adj; reflexivity. Qed.
  Lemma isclose_near adj l : q < 1 -> isclose (Fin l) (Fin (loss_limit adj q)) = true <-> near_limit adj q l.
  Proof.
    intros H. unfold near_limit, isclose.
    destruct (Rleb_spec (Rabs (l - loss_limit adj q)) (1 / 10 ^ 9 * Rmax (Rabs l) (Rabs (loss_limit adj q)))) as [L|L]; split; intros; auto; try discriminate; lra.
  Qed.
  Lemma exp_limit adj l : q < 1 -> (match adj with REMOVE => loss_limit adj q < l | ADD => l < loss_limit adj q end) <->
    match adj with REMOVE => 1 - q < exp l | ADD => exp l * (1 - q) < 1 end.
  Proof.
    intros H. assert (Hc : 0 < 1 - q) by lra. destruct adj; cbn [loss_limit].
    - rewrite <- (exp_ln (1 - q)) at 2 by assumption. rewrite <- exp_plus. rewrite <- exp_0. split; intros L.
      + apply exp_increasing. lra.
      + apply exp_lt_inv in L. lra.
    - rewrite <- (exp_ln (1 - q)) at 2 by assumption. split; intros L; [apply exp_increasing, L | apply exp_lt_inv, L].
  Qed.

  (** inverse_privacy_loss *)
  Lemma inverse_ok adj l : loss_possible adj q l -> ~ near_limit adj q l ->
    a_inverse_privacy_loss q adj (inverse0 adj) (Fin l) = Ok (peak adj q s pk l).
  Proof.
    intros HP HN. unfold a_inverse_privacy_loss. destruct (Reqb_spec q 1) as [->|Nq].
    - rewrite peak_1. destruct adj; [apply (fit_add _ _ _ _ _ HF) | apply (fit_remove _ _ _ _ _ HF)].
    - assert (q1 : q < 1) by lra. specialize (HP q1). pose proof (proj1 (exp_limit adj l q1) HP) as E. pose proof (exp_pos l) as El.
      destruct adj.
      + rewrite (limit_val ADD q1). destruct (isclose (Fin l) (Fin (loss_limit ADD q))) eqn:C; [apply isclose_near in C; tauto|].
        cbn [xltb]. rewrite Rltb_false by lra. cbn [xneg].
        assert (P : 0 < 1 / q * exp (- l) + (1 - 1 / q)).
        { rewrite exp_Ropp. replace (1 / q * / exp l + (1 - 1 / q)) with ((1 - exp l * (1 - q)) / (q * exp l)) by (field; lra).
          apply Rdiv_lt_0_compat; [lra | nra]. }
        rewrite log_abc_pos by exact P. cbn [bind xneg]. rewrite (fit_add _ _ _ _ _ HF). cbn [peak]. unfold peak_add.
        rewrite Rltb_true by assumption. do 3 f_equal. rewrite <- ln_Rinv by exact P. f_equal. rewrite exp_Ropp.
        replace (1 / q * / exp l + (1 - 1 / q)) with ((1 - exp l * (1 - q)) / (q * exp l)) by (field; lra).
        field. repeat split; lra.
      + rewrite (limit_val REMOVE q1). destruct (isclose (Fin l) (Fin (loss_limit REMOVE q))) eqn:C; [apply isclose_near in C; tauto|].
        cbn [xleb]. rewrite Rleb_false by lra.
        assert (P : 0 < 1 / q * exp l + (1 - 1 / q)).
        { replace (1 / q * exp l + (1 - 1 / q)) with ((exp l - (1 - q)) / q) by (field; lra). apply Rdiv_lt_0_compat; lra. }
        rewrite log_abc_pos by exact P. cbn [bind]. rewrite (fit_remove _ _ _ _ _ HF). cbn [peak]. unfold peak_remove.
        rewrite Rltb_true by assumption. do 3 f_equal. field. lra.
  Qed.
  Lemma inverse_raises adj l : ~ loss_possible adj q l -> ~ near_limit adj q l ->
    a_inverse_privacy_loss q adj (inverse0 adj) (Fin l) = Err ValueError.
  Proof.
    intros HP HN. assert (q1 : q < 1). { destruct (Rle_lt_dec 1 q); [|assumption]. exfalso. apply HP. intros ?. lra. }
    unfold a_inverse_privacy_loss. rewrite Reqb_false by lra.
    assert (X : ~ match adj with REMOVE => loss_limit adj q < l | ADD => l < loss_limit adj q end) by (intros X; apply HP; intros _; exact X).
    destruct adj.
    - rewrite (limit_val ADD q1). destruct (isclose (Fin l) (Fin (loss_limit ADD q))) eqn:C; [apply isclose_near in C; tauto|].
      cbn [xltb]. destruct (Rltb_spec (loss_limit ADD q) l); [reflexivity|]. 
      exfalso. apply HN. split; [assumption|]. replace (l - loss_limit ADD q) with 0 by lra. rewrite Rabs_R0.
      apply Rmult_le_pos; [lra|]. eapply Rle_trans; [apply Rabs_pos | apply Rmax_l].
    - rewrite (limit_val REMOVE q1). destruct (isclose (Fin l) (Fin (loss_limit REMOVE q))) eqn:C; [apply isclose_near in C; tauto|].
      cbn [xleb]. rewrite Rleb_true by lra. reflexivity.
  Qed.

  (** get_delta_for_epsilon *)
  Lemma get_delta_at adj eps x : x <> NaN -> 0 <= delta_at adj eps x ->
    clip01 (xsub (Fin (a_mu_upper_cdf s q adj cdf x)) (xexp (xadd (Fin eps) (a_mu_lower_log_cdf s q adj cdf x)))) = Fin (delta_at adj eps x).
  Proof.
    intros Nx P. destruct (law_cdf adj) as [U L]. rewrite upper_cdf, lower_cdf by assumption.
    pose proof (at_end_01 _ x U). pose proof (at_end_01 _ x L). pose proof (exp_pos eps).
    rewrite exp_np_log by lra. unfold xsub. cbn [xneg xadd]. change (at_end (upper_law adj F q s) x + - (exp eps * at_end (lower_law adj F q s) x)) with (delta_at adj eps x).
    apply clip_id. split; [assumption|]. unfold delta_at. nra.
  Qed.
  Lemma get_delta_exact adj eps : ~ near_limit adj q eps ->
    a_get_delta s q adj cdf (inverse0 adj) eps = Ok (Fin (delta_at adj eps (peak adj q s pk eps))).
  Proof.
    intros HN. pose proof (law_peaked adj eps) as PK. assert (NP : peak adj q s pk eps <> NaN) by apply PK.
    assert (A : loss_possible adj q eps ->
      (let? x := a_inverse_privacy_loss q adj (inverse0 adj) (Fin eps) in
       Ok (clip01 (xsub (Fin (a_mu_upper_cdf s q adj cdf x)) (xexp (xadd (Fin eps) (a_mu_lower_log_cdf s q adj cdf x)))))) =
      Ok (Fin (delta_at adj eps (peak adj q s pk eps)))).
    { intros HP. rewrite inverse_ok by assumption. cbn [bind]. f_equal. apply get_delta_at; [assumption | apply delta_peak_01]. }
    unfold a_get_delta. destruct (Reqb_spec q 1) as [E|Nq]; [apply A; intros ?; lra|].
    assert (q1 : q < 1) by lra. unfold np_log1p. cbn [xadd]. rewrite (np_log_pos (1 + - q)) by lra.
    replace (1 + - q) with (1 - q) by ring.
    destruct adj; cbn [xneg xltb].
    - destruct (Rltb_spec eps (- ln (1 - q))) as [L|L]; [apply A; intros _; exact L|].
      cbn [peak]. unfold peak_add. rewrite Rltb_false.
      2: { destruct (Rle_lt_dec 1 (exp eps * (1 - q))) as [?|G]; [assumption|]. apply (exp_limit ADD eps q1) in G. cbn in G. lra. }
      unfold delta_at. cbn. do 2 f_equal. ring.
    - destruct (Rltb_spec (ln (1 - q)) eps) as [L|L]; [apply A; intros _; exact L|].
      assert (G : exp eps <= 1 - q).
      { destruct (Rle_lt_dec (exp eps) (1 - q)) as [?|G]; [assumption|]. apply (exp_limit REMOVE eps q1) in G. cbn in G. lra. }
      cbn [peak]. unfold peak_remove. rewrite Rltb_false by assumption.
      unfold delta_at, expm1. cbn [upper_law lower_law at_end]. pose proof (exp_pos eps).
      replace (- (exp eps - 1)) with (1 - exp eps) by ring. rewrite clip_id by lra. do 2 f_equal. ring.
  Qed.

  (** within a relative 1e-9 of the limit of the privacy loss: a slight underestimate *)
  Lemma delta_at_remove eps x : delta_at REMOVE eps x = q * at_end F (xadd x (Fin s)) - (exp eps - (1 - q)) * at_end F x.
  Proof. unfold delta_at. cbn [upper_law lower_law]. unfold remove_upper. rewrite at_end_sampled, at_end_shift. ring. Qed.
  Lemma delta_at_add eps x : delta_at ADD eps x = (1 - exp eps * (1 - q)) * at_end F x - exp eps * q * at_end F (xadd x (Fin (- s))).
  Proof.
    unfold delta_at. cbn [upper_law lower_law]. unfold add_lower. rewrite at_end_sampled, at_end_shift.
    change (fun x => F (x - s)) with (fun x => F (x + - s)). ring.
  Qed.
  Lemma get_delta_at_any adj eps x : x <> NaN ->
    clip01 (xsub (Fin (a_mu_upper_cdf s q adj cdf x)) (xexp (xadd (Fin eps) (a_mu_lower_log_cdf s q adj cdf x)))) = Fin (Rmax 0 (delta_at adj eps x)).
  Proof.
    intros Nx. destruct (law_cdf adj) as [U L]. rewrite upper_cdf, lower_cdf by assumption.
    pose proof (at_end_01 _ x U). pose proof (at_end_01 _ x L). pose proof (exp_pos eps).
    rewrite exp_np_log by lra. unfold xsub. cbn [xneg xadd]. change (at_end (upper_law adj F q s) x + - (exp eps * at_end (lower_law adj F q s) x)) with (delta_at adj eps x).
    cbn [clip01]. f_equal. apply Rmin_right. apply Rmax_lub; [lra|]. unfold delta_at. nra.
  Qed.
  Lemma exp_pos_le x : 1 - exp (- Rabs x) <= exp (Rabs x) - 1.
  Proof.
    rewrite exp_Ropp. pose proof (exp_pos (Rabs x)). set (t := exp (Rabs x)) in *.
    assert (0 <= (t - 1) * (t - 1) / t) by (unfold Rdiv; apply Rmult_le_pos; [apply Rle_0_sqr | left; apply Rinv_0_lt_compat; assumption]).
    replace ((t - 1) * (t - 1) / t) with (t - 2 + / t) in H0 by (field; lra). lra.
  Qed.
  Lemma get_delta_near adj eps : near_limit adj q eps ->
    exists d, a_get_delta s q adj cdf (inverse0 adj) eps = Ok (Fin d) /\
      d <= delta_at adj eps (peak adj q s pk eps) <= d + (exp (Rabs (eps - loss_limit adj q)) - 1).
  Proof.
    intros HN. assert (q1 : q < 1) by apply HN.
    assert (E0 : 0 <= exp (Rabs (eps - loss_limit adj q)) - 1).
    { assert (exp 0 <= exp (Rabs (eps - loss_limit adj q))); [|rewrite exp_0 in *; lra].
      destruct (Rabs_pos (eps - loss_limit adj q)) as [G|<-]; [left; apply exp_increasing, G | lra]. }
    unfold a_get_delta, a_inverse_privacy_loss. rewrite !Reqb_false by lra.
    change (np_log1p (Fin (- q))) with (np_log (Fin (1 + - q))). replace (1 + - q) with (1 - q) by ring.
    pose proof (exp_pos eps) as Ee.
    destruct adj.
    - rewrite (limit_val ADD q1), (proj2 (isclose_near ADD eps q1)) by assumption. change (xltb (Fin eps) (Fin (loss_limit ADD q))) with (Rltb eps (- ln (1 - q))).
      destruct (Rltb_spec eps (- ln (1 - q))) as [L|L].
      + destruct (fit_pinf _ _ _ _ _ HF) as (x & -> & Nx & X0). cbn [bind]. rewrite get_delta_at_any by assumption.
        pose proof (proj1 (exp_limit ADD eps q1) L) as T. cbn beta in T.
        exists (Rmax 0 (delta_at ADD eps x)). split; [reflexivity|]. split.
        * apply Rmax_lub; [apply delta_peak_01 | apply delta_at_best, Nx].
        * pose proof (Rmax_l 0 (delta_at ADD eps x)). rewrite delta_at_add at 1.
          assert (P : exp eps * (1 - q) = exp (- Rabs (eps - loss_limit ADD q))).
          { rewrite <- (exp_ln (1 - q)) at 1 by lra. rewrite <- exp_plus. f_equal. cbn [loss_limit]. rewrite Rabs_left by lra. ring. }
          rewrite P. pose proof (exp_pos_le (eps - loss_limit ADD q)).
          pose proof (at_end_01 _ (peak ADD q s pk eps) shape_at) as B1. pose proof (at_end_01 _ (xadd (peak ADD q s pk eps) (Fin (- s))) shape_at) as B2.
          rewrite P in T. set (u := at_end F (peak ADD q s pk eps)) in *. set (v := at_end F (xadd (peak ADD q s pk eps) (Fin (- s)))) in *.
          assert (0 <= exp eps * q * v) by (apply Rmult_le_pos; [nra | lra]). nra.
      + exists 0. split; [reflexivity|]. split; [apply delta_peak_01|]. cbn [peak]. unfold peak_add. rewrite Rltb_false.
        2: { destruct (Rle_lt_dec 1 (exp eps * (1 - q))) as [?|G]; [assumption|]. apply (exp_limit ADD eps q1) in G. cbn in G. lra. }
        unfold delta_at. cbn. cbn in E0. lra.
    - rewrite (limit_val REMOVE q1), (proj2 (isclose_near REMOVE eps q1)) by assumption. change (xltb (Fin (loss_limit REMOVE q)) (Fin eps)) with (Rltb (ln (1 - q)) eps).
      destruct (Rltb_spec (ln (1 - q)) eps) as [L|L].
      + destruct (fit_minf _ _ _ _ _ HF) as (x & -> & Nx & X1). cbn [bind]. rewrite get_delta_at_any by assumption.
        pose proof (proj1 (exp_limit REMOVE eps q1) L) as T. cbn beta in T.
        exists (Rmax 0 (delta_at REMOVE eps x)). split; [reflexivity|]. split.
        * apply Rmax_lub; [apply delta_peak_01 | apply delta_at_best, Nx].
        * pose proof (Rmax_r 0 (delta_at REMOVE eps x)) as M. rewrite delta_at_remove in M at 1. rewrite X1 in M.
          rewrite delta_at_remove at 1.
          assert (P : exp eps = (1 - q) * exp (Rabs (eps - loss_limit REMOVE q))).
          { rewrite <- (exp_ln (1 - q)) at 1 by lra. rewrite <- exp_plus. f_equal. cbn [loss_limit]. rewrite Rabs_right by lra. ring. }
          pose proof (at_end_01 _ x shape_at) as B0.
          pose proof (at_end_01 _ (peak REMOVE q s pk eps) shape_at) as B1. pose proof (at_end_01 _ (xadd (peak REMOVE q s pk eps) (Fin s)) shape_at) as B2.
          set (u := at_end F (peak REMOVE q s pk eps)) in *. set (v := at_end F (xadd (peak REMOVE q s pk eps) (Fin s))) in *.
          set (w := at_end F x) in *. set (z := Rmax 0 (delta_at REMOVE eps x)) in *.
          assert (exp eps - (1 - q) <= exp (Rabs (eps - loss_limit REMOVE q)) - 1) by (rewrite P; nra). nra.
      + assert (G : exp eps <= 1 - q).
        { destruct (Rle_lt_dec (exp eps) (1 - q)) as [?|G]; [assumption|]. apply (exp_limit REMOVE eps q1) in G. cbn in G. lra. }
        exists (1 - exp eps). split.
        * unfold expm1. replace (- (exp eps - 1)) with (1 - exp eps) by ring. rewrite clip_id by lra. reflexivity.
        * cbn [peak]. unfold peak_remove. rewrite Rltb_false by assumption. unfold delta_at. cbn [upper_law lower_law at_end]. lra.
  Qed.
End Additive.

(** ** The privacy loss *)
Definition sub_remove (q : R) (l : xr) : xr :=
  match l with
  | Fin a => Fin (ln (q * exp a + (1 - q)))
  | MInf => if Reqb q 1 then MInf else Fin (ln (1 - q))
  | l => l
  end.
Definition sub_loss (adj : adjacency) (q : R) (l : xr) : xr :=
  match adj with REMOVE => sub_remove q l | ADD => xneg (sub_remove q (xneg l)) end.
Lemma sub_loss_ok q adj loss0 x l0 : 0 < q <= 1 -> loss0 x = Ok l0 -> l0 <> NaN ->
  a_privacy_loss q adj loss0 x = Ok (sub_loss adj q l0).
Proof.
  intros Hq E N. unfold a_privacy_loss. rewrite E. cbn [bind].
  assert (A : forall l, l <> NaN -> q <> 1 -> log_abc q l (1 - q) = Ok (sub_remove q l)).
  { intros l Nl Nq. destruct l as [a| | |]; try congruence; cbn [sub_remove].
    - apply log_abc_pos. pose proof (exp_pos a). nra.
    - rewrite log_abc_pinf, Rltb_true by lra. reflexivity.
    - rewrite log_abc_minf, Rltb_true, Reqb_false by lra. reflexivity. }
  destruct (Reqb_spec q 1) as [->|Nq].
  - f_equal. assert (S : forall a, ln (1 * exp a + (1 - 1)) = a) by (intros a; replace (1 * exp a + (1 - 1)) with (exp a) by ring; apply ln_exp).
    destruct adj, l0 as [a| | |]; cbn [sub_loss sub_remove xneg]; rewrite ?S, ?Reqb_refl; cbn [xneg]; rewrite ?Ropp_involutive; reflexivity.
  - destruct adj; cbn [sub_loss].
    + rewrite A; [reflexivity | destruct l0; cbn; congruence | assumption].
    + apply A; assumption.
Qed.
Lemma ln_le_iff x y : 0 < x -> 0 < y -> ln x <= ln y <-> x <= y.
Proof.
  intros Hx Hy. split; intros H.
  - destruct (Rle_lt_dec x y) as [?|L]; [assumption|]. apply ln_increasing in L; lra.
  - destruct H as [L| ->]; [left; apply ln_increasing; assumption | lra].
Qed.
Lemma sub_remove_ge q l a : 0 < q <= 1 -> l <> NaN -> 1 - q < exp a ->
  xleb (Fin a) (sub_remove q l) = true <-> xleb (Fin (ln ((exp a - (1 - q)) / q))) l = true.
Proof.
  intros Hq N Ha. assert (T : 0 < (exp a - (1 - q)) / q) by (apply Rdiv_lt_0_compat; lra).
  destruct l as [b| | |]; try congruence; cbn [sub_remove].
  - rewrite !xleb_fin. pose proof (exp_pos b). rewrite <- (ln_exp a) at 1. rewrite ln_le_iff; [| apply exp_pos | nra].
    rewrite <- (ln_exp b) at 2. rewrite ln_le_iff by (assumption || apply exp_pos). split; intros H0.
    + apply (Rmult_le_reg_r q); [lra|]. replace ((exp a - (1 - q)) / q * q) with (exp a - (1 - q)) by (field; lra). lra.
    + apply (Rmult_le_compat_r q) in H0; [|lra]. replace ((exp a - (1 - q)) / q * q) with (exp a - (1 - q)) in H0 by (field; lra). lra.
  - split; reflexivity.
  - destruct (Reqb_spec q 1) as [->|Nq]; [split; discriminate|]. split; [|discriminate]. intros H. apply xleb_fin in H.
    rewrite <- (ln_exp a) in H. apply (proj1 (ln_le_iff (exp a) (1 - q) (exp_pos a) ltac:(lra))) in H. exfalso. lra.
Qed.
(** the same for upper bounds *)
Lemma sub_remove_le q l a : 0 < q <= 1 -> l <> NaN -> 1 - q < exp a ->
  xleb (sub_remove q l) (Fin a) = true <-> xleb l (Fin (ln ((exp a - (1 - q)) / q))) = true.
Proof.
  intros Hq N Ha. assert (T : 0 < (exp a - (1 - q)) / q) by (apply Rdiv_lt_0_compat; lra).
  destruct l as [b| | |]; try congruence; cbn [sub_remove].
  - rewrite !xleb_fin. pose proof (exp_pos b). rewrite <- (ln_exp a) at 1. rewrite ln_le_iff; [| nra | apply exp_pos].
    rewrite <- (ln_exp b) at 2. rewrite ln_le_iff by (assumption || apply exp_pos). split; intros H0.
    + apply (Rmult_le_reg_r q); [lra|]. replace ((exp a - (1 - q)) / q * q) with (exp a - (1 - q)) by (field; lra). lra.
    + apply (Rmult_le_compat_r q) in H0; [|lra]. replace ((exp a - (1 - q)) / q * q) with (exp a - (1 - q)) in H0 by (field; lra). lra.
  - split; discriminate.
  - split; [reflexivity|]. intros _. destruct (Reqb_spec q 1) as [->|Nq]; [reflexivity|]. apply xleb_fin.
    rewrite <- (ln_exp a). apply ln_le_iff; [lra | apply exp_pos | lra].
Qed.
Lemma xleb_neg_iff x y : xleb (xneg x) (xneg y) = true <-> xleb y x = true.
Proof.
  split; intros H; [|apply xleb_neg, H]. apply xleb_neg in H.
  assert (N : forall z, xneg (xneg z) = z) by (intros z; destruct z; cbn; rewrite ?Ropp_involutive; reflexivity).
  rewrite !N in H. assumption.
Qed.
Lemma loss_possible_exp adj q l : 0 < q <= 1 -> loss_possible adj q l ->
  match adj with REMOVE => 1 - q < exp l | ADD => exp l * (1 - q) < 1 end.
Proof.
  intros Hq H. destruct (Req_dec q 1) as [->|N].
  - pose proof (exp_pos l). destruct adj; lra.
  - apply exp_limit; [lra|]. apply H. lra.
Qed.
Lemma sub_loss_ge adj q l a : 0 < q <= 1 -> l <> NaN -> loss_possible adj q a ->
  xleb (Fin a) (sub_loss adj q l) = true <->
  xleb (Fin (match adj with REMOVE => ln ((exp a - (1 - q)) / q) | ADD => ln (exp a * q / (1 - exp a * (1 - q))) end)) l = true.
Proof.
  intros Hq N HP. apply loss_possible_exp in HP; [|assumption]. pose proof (exp_pos a) as Ea.
  destruct adj; cbn [sub_loss].
  - assert (A2 : 1 - q < exp (- a)).
    { rewrite exp_Ropp. apply (Rmult_lt_reg_r (exp a)); [assumption|]. rewrite Rinv_l; lra. }
    replace (Fin a) with (xneg (Fin (- a))) by (cbn; f_equal; ring). rewrite xleb_neg_iff.
    rewrite sub_remove_le; [| assumption | destruct l; cbn; congruence | assumption].
    replace (Fin (ln ((exp (- a) - (1 - q)) / q))) with (xneg (Fin (ln (exp a * q / (1 - exp a * (1 - q)))))).
    2: { cbn. f_equal. rewrite <- ln_Rinv. 2: { apply Rdiv_lt_0_compat; [nra | lra]. } f_equal. rewrite exp_Ropp. field. repeat split; lra. }
    apply xleb_neg_iff.
  - apply sub_remove_ge; assumption.
Qed.
Lemma xleb_by_le x y : x <> NaN -> y <> NaN -> (forall l, xleb (Fin l) x = true -> xleb (Fin l) y = true) -> xleb x y = true.
Proof.
  intros Nx Ny H. destruct x as [a| | |], y as [b| | |]; try congruence; try reflexivity.
  - apply H. cbn. apply Rleb_true. lra.
  - specialize (H a). cbn in H. rewrite Rleb_true in H by lra. specialize (H eq_refl). discriminate.
  - specialize (H (b + 1) eq_refl). apply xleb_fin in H. lra.
  - specialize (H 0 eq_refl). discriminate.
Qed.
Lemma sub_remove_mono q x y : 0 < q <= 1 -> xleb x y = true -> xleb (sub_remove q x) (sub_remove q y) = true.
Proof.
  intros Hq H. destruct (xleb_nan _ _ H) as [Nx Ny].
  destruct x as [a| | |], y as [b| | |]; try congruence; try discriminate H; cbn [sub_remove]; try reflexivity.
  - apply xleb_fin. apply xleb_fin in H. pose proof (exp_pos a). apply ln_le_iff; [nra | pose proof (exp_pos b); nra |].
    assert (exp a <= exp b) by (destruct H as [L| ->]; [left; apply exp_increasing, L | lra]). nra.
  - pose proof (exp_pos b). destruct (Reqb_spec q 1) as [->|Nq]; [reflexivity|]. apply xleb_fin. apply ln_le_iff; nra.
  - destruct (Reqb q 1); reflexivity.
  - destruct (Reqb_spec q 1); [reflexivity|]. apply xleb_fin. lra.
Qed.
Lemma sub_loss_mono adj q x y : 0 < q <= 1 -> xleb x y = true -> xleb (sub_loss adj q x) (sub_loss adj q y) = true.
Proof.
  intros Hq H. destruct adj; cbn [sub_loss]; [|apply sub_remove_mono; assumption].
  apply xleb_neg_iff, sub_remove_mono; [assumption|]. apply xleb_neg_iff, H.
Qed.
Lemma sub_loss_nan adj q l : l <> NaN -> sub_loss adj q l <> NaN.
Proof.
  intros N. assert (A : forall l, l <> NaN -> sub_remove q l <> NaN).
  { intros x Hx. destruct x; cbn; try congruence. destruct (Reqb q 1); congruence. }
  destruct adj; cbn [sub_loss]; [|apply A, N]. assert (xneg l <> NaN) by (destruct l; cbn; congruence).
  specialize (A _ H). destruct (sub_remove q (xneg l)); cbn; congruence.
Qed.

(** [L] is the privacy loss without subsampling (REMOVE), on the points [pt] *)
Record loses (s : R) (pk : R -> xr) (loss0 : adjacency -> xr -> res xr) (pt : adjacency -> R -> Prop) (L : R -> xr) : Prop := {
  lose_remove : forall x, pt REMOVE x -> loss0 REMOVE (Fin x) = Ok (L x) /\ L x <> NaN;
  lose_add : forall x, pt ADD x -> loss0 ADD (Fin x) = Ok (L (x - s)) /\ L (x - s) <> NaN;
  lose_remove_iff : forall x l, pt REMOVE x -> xleb (Fin l) (L x) = true <-> xleb (Fin x) (pk l) = true;
  lose_add_iff : forall x l, pt ADD x -> xleb (Fin l) (L (x - s)) = true <-> xleb (Fin (x - s)) (pk l) = true;
  lose_only : forall adj x l, loss0 adj (Fin x) = Ok l -> pt adj x }.

Section Loss.
  Context (s : R) (pk : R -> xr) (loss0 : adjacency -> xr -> res xr) (pt : adjacency -> R -> Prop) (L : R -> xr).
  Hypothesis HL : loses s pk loss0 pt L.
  Hypothesis Npk : forall l, pk l <> NaN.
  Context (q : R) (Hq : 0 < q <= 1).

  Definition base_loss adj x := match adj with REMOVE => L x | ADD => L (x - s) end.
  Lemma base_ok adj x : pt adj x -> loss0 adj (Fin x) = Ok (base_loss adj x) /\ base_loss adj x <> NaN.
  Proof. destruct adj; cbn; intros H; [apply (lose_add _ _ _ _ _ HL) | apply (lose_remove _ _ _ _ _ HL)]; assumption. Qed.
  Lemma shift_leb x p : xleb (Fin x) (xadd p (Fin s)) = true <-> xleb (Fin (x - s)) p = true.
  Proof. destruct p as [a| | |]; cbn [xadd]; try tauto. rewrite !xleb_fin. split; intros; lra. Qed.
  Lemma base_iff adj x l : pt adj x ->
    xleb (Fin l) (base_loss adj x) = true <-> xleb (Fin x) (match adj with REMOVE => pk l | ADD => xadd (pk l) (Fin s) end) = true.
  Proof.
    destruct adj; cbn [base_loss]; intros H; [|apply (lose_remove_iff _ _ _ _ _ HL); assumption].
    rewrite shift_leb. apply (lose_add_iff _ _ _ _ _ HL); assumption.
  Qed.
  Lemma loss_ok adj x : pt adj x -> a_privacy_loss q adj (loss0 adj) (Fin x) = Ok (sub_loss adj q (base_loss adj x)).
  Proof. intros H. destruct (base_ok adj x H). apply sub_loss_ok; assumption. Qed.
  Lemma loss_pt adj x l : a_privacy_loss q adj (loss0 adj) (Fin x) = Ok l -> pt adj x.
  Proof.
    unfold a_privacy_loss. destruct (loss0 adj (Fin x)) as [l0|] eqn:E; cbn [bind]; [|discriminate]. intros _.
    apply (lose_only _ _ _ _ _ HL adj x l0 E).
  Qed.
  Lemma loss_galois adj x l' l : a_privacy_loss q adj (loss0 adj) (Fin x) = Ok l' -> loss_possible adj q l ->
    xleb (Fin l) l' = true <-> xleb (Fin x) (peak adj q s pk l) = true.
  Proof.
    intros E HP. pose proof (loss_pt _ _ _ E) as P. rewrite loss_ok in E by assumption. injection E as <-.
    rewrite sub_loss_ge; [| assumption | apply base_ok, P | assumption]. rewrite base_iff by assumption.
    apply loss_possible_exp in HP; [|assumption].
    destruct adj; cbn [peak]; [unfold peak_add | unfold peak_remove]; rewrite Rltb_true by assumption; reflexivity.
  Qed.
  Lemma pk_anti l l' x : pt REMOVE x -> l <= l' -> xleb (Fin x) (pk l') = true -> xleb (Fin x) (pk l) = true.
  Proof.
    intros P Hl H. rewrite <- (lose_remove_iff _ _ _ _ _ HL) in * by assumption. apply (xleb_trans _ (Fin l')); [apply xleb_fin, Hl | assumption].
  Qed.
  Lemma loss_mono adj x y lx ly : a_privacy_loss q adj (loss0 adj) (Fin x) = Ok lx -> a_privacy_loss q adj (loss0 adj) (Fin y) = Ok ly ->
    x <= y -> xleb ly lx = true.
  Proof.
    intros Ex Ey Hxy. pose proof (loss_pt _ _ _ Ex) as Px. pose proof (loss_pt _ _ _ Ey) as Py.
    rewrite loss_ok in Ex, Ey by assumption. injection Ex as <-. injection Ey as <-.
    apply sub_loss_mono; [assumption|]. apply xleb_by_le; [apply base_ok, Py | apply base_ok, Px|].
    intros l. rewrite !base_iff by assumption. intros H. apply (xleb_trans _ (Fin y)); [apply xleb_fin, Hxy | assumption].
  Qed.
End Loss.

(** [L] is the log-likelihood ratio for the density [f] *)
Definition ratio_of (f : R -> R) (s x : R) (l : xr) : Prop := log_ratio (f (x + s)) (f x) l.
Lemma sub_ratio (s : R) q x y l : 0 < q <= 1 -> log_ratio y x l -> log_ratio ((1 - q) * x + q * y) x (sub_remove q l).
Proof.
  intros Hq. destruct l as [a| | |]; cbn [sub_remove log_ratio].
  - intros (Hy & Hx & ->). assert (0 <= (1 - q) * x) by (apply Rmult_le_pos; lra). assert (0 < q * y) by (apply Rmult_lt_0_compat; lra).
    split; [lra|]. split; [assumption|]. rewrite exp_ln by (apply Rdiv_lt_0_compat; assumption). f_equal. field. lra.
  - intros (Hy & ->). assert (0 < q * y) by (apply Rmult_lt_0_compat; lra). split; [lra | reflexivity].
  - intros (-> & Hx). destruct (Reqb_spec q 1) as [->|N]; cbn [log_ratio].
    + split; [ring | assumption].
    + assert (0 < (1 - q) * x) by (apply Rmult_lt_0_compat; lra). split; [lra|]. split; [assumption|]. f_equal. field. lra.
  - tauto.
Qed.
Lemma ratio_inv x y l : log_ratio y x l -> log_ratio x y (xneg l).
Proof.
  destruct l as [a| | |]; cbn [xneg log_ratio]; try tauto. intros (Hy & Hx & ->). split; [assumption|]. split; [assumption|].
  rewrite <- ln_Rinv by (apply Rdiv_lt_0_compat; assumption). f_equal. field. lra.
Qed.
Lemma sub_loss_ratio adj f s q x L : 0 < q <= 1 ->
  (match adj with REMOVE => ratio_of f s x L | ADD => ratio_of f s (x - s) L end) ->
  log_ratio (upper_density adj f q s x) (lower_density adj f q s x) (sub_loss adj q L).
Proof.
  intros Hq. unfold ratio_of. destruct adj; cbn [upper_density lower_density sub_loss]; intros H.
  - apply ratio_inv. apply sub_ratio; [exact s | assumption|]. apply ratio_inv. replace (x - s + s) with x in H by ring. assumption.
  - apply sub_ratio; [exact s | assumption | assumption].
Qed.
