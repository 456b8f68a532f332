(** Monotonicity of the conversion from Renyi bounds to (epsilon, delta). *)
From Verif Require Import Base XReal Exn SpecDP SpecRenyi SpecRdp ProofDP ProofRenyi TypesEvent TypesRelation ModelMake ModelRdp ProofConv.
Local Arguments Rltb : simpl never.
Local Arguments Rleb : simpl never.
Local Arguments Reqb : simpl never.

Lemma xpos_finpos x : xpos x -> finpos x.
Proof. destruct x; cbn; intros H; try exact I; discriminate H. Qed.
Lemma xpos_Fin r : xpos (Fin r) <-> 0 <= r.
Proof. unfold xpos. cbn. destruct (Rleb_spec 0 r); split; intros; try assumption; try discriminate; try reflexivity; lra. Qed.

Lemma xleb_Fin x y : xleb (Fin x) (Fin y) = true <-> x <= y.
Proof. cbn. destruct (Rleb_spec x y); split; intros; try assumption; try discriminate; try reflexivity; lra. Qed.

Lemma eps_order_mono_rdp delta a r r' : 0 < delta -> 1 <= a -> finpos r -> finpos r' -> xleb r r' = true ->
  xleb (pymax (Fin 0) (eps_of_order delta (Fin a) r)) (pymax (Fin 0) (eps_of_order delta (Fin a) r')) = true.
Proof.
  intros Hd Ha F F' H.
  pose proof (eps_of_order_num delta a r Hd Ha F) as N. pose proof (eps_of_order_num delta a r' Hd Ha F') as N'.
  assert (Z : forall x, num_x x -> xleb (pymax (Fin 0) (Fin 0)) (pymax (Fin 0) x) = true).
  { intros x Nx. replace (pymax (Fin 0) (Fin 0)) with (Fin 0) by (unfold pymax; cbn; destruct (Rltb 0 0); reflexivity).
    apply pymax_ge_l. discriminate. }
  destruct (Rle_lt_dec delta 1) as [D1|D1].
  - destruct r' as [r'| | |]; try contradiction.
    + destruct r as [r| | |]; try contradiction; try discriminate H.
      apply xleb_Fin in H.
      rewrite (eps_of_order_Fin delta a r) by assumption.
      destruct (Rltb_spec r 0); [apply Z; assumption|].
      destruct (Rltb_spec 0 (delta * delta + (exp (- r) - 1))); [apply Z; assumption|].
      rewrite eps_of_order_Fin by assumption.
      pose proof (exp_le (- r') (- r) ltac:(lra)).
      rewrite (Rltb_false r' 0) by lra. rewrite (Rltb_false 0 (delta * delta + (exp (- r') - 1))) by lra.
      destruct (Rltb (101 / 100) a); [|reflexivity].
      apply pymax_mono; [discriminate|]. apply xleb_Fin. lra.
    + rewrite eps_of_order_PInf by lra. unfold pymax at 2. cbn [xltb].
      destruct (pymax (Fin 0) (eps_of_order delta (Fin a) r)) eqn:E; try reflexivity.
      unfold pymax in E. destruct (xltb _ _); [|discriminate]. rewrite E in N. elim N; reflexivity.
  - assert (E : forall r, finpos r -> eps_of_order delta (Fin a) r = Fin 0).
    { intros q Fq. destruct q as [q| | |]; try contradiction.
      - rewrite eps_of_order_Fin by assumption. pose proof (exp_pos (- q)).
        destruct (Rltb q 0); [reflexivity|]. rewrite Rltb_true by nra. reflexivity.
      - unfold eps_of_order. cbn. rewrite Rltb_true by nra. reflexivity. }
    rewrite !E by assumption. apply Z. discriminate.
Qed.

Lemma eps_order_mono_delta delta delta' a r : 0 < delta -> delta <= delta' -> 1 <= a -> finpos r ->
  xleb (pymax (Fin 0) (eps_of_order delta' (Fin a) r)) (pymax (Fin 0) (eps_of_order delta (Fin a) r)) = true.
Proof.
  intros Hd Hd' Ha F.
  pose proof (eps_of_order_num delta a r Hd Ha F) as N.
  pose proof (eps_of_order_num delta' a r ltac:(lra) Ha F) as N'.
  assert (Z : forall x, num_x x -> xleb (pymax (Fin 0) (Fin 0)) (pymax (Fin 0) x) = true).
  { intros x Nx. replace (pymax (Fin 0) (Fin 0)) with (Fin 0) by (unfold pymax; cbn; destruct (Rltb 0 0); reflexivity).
    apply pymax_ge_l. discriminate. }
  destruct r as [r| | |]; try contradiction.
  - rewrite (eps_of_order_Fin delta' a r) by lra.
    destruct (Rltb_spec r 0); [apply Z; assumption|].
    destruct (Rltb_spec 0 (delta' * delta' + (exp (- r) - 1))); [apply Z; assumption|].
    rewrite eps_of_order_Fin by assumption.
    rewrite (Rltb_false r 0) by lra. rewrite (Rltb_false 0 (delta * delta + (exp (- r) - 1))) by nra.
    destruct (Rltb_spec (101 / 100) a) as [L|]; [|reflexivity].
    apply pymax_mono; [discriminate|]. apply xleb_Fin.
    assert (ln (delta * a) <= ln (delta' * a)).
    { apply ln_le_mono; [apply Rmult_lt_0_compat; lra | apply Rmult_le_compat_r; lra]. }
    assert (ln (delta * a) / (a - 1) <= ln (delta' * a) / (a - 1)).
    { apply Rmult_le_compat_r; [left; apply Rinv_0_lt_compat; lra | assumption]. }
    lra.
  - destruct (Rle_lt_dec delta 1).
    + rewrite (eps_of_order_PInf delta a) by lra. unfold pymax at 2. cbn [xltb].
      destruct (pymax (Fin 0) (eps_of_order delta' (Fin a) PInf)) eqn:E; try reflexivity.
      unfold pymax in E. destruct (xltb _ _); [|discriminate]. rewrite E in N'. elim N'; reflexivity.
    + assert (E : eps_of_order delta' (Fin a) PInf = Fin 0).
      { unfold eps_of_order. cbn. rewrite Rltb_true by nra. reflexivity. }
      rewrite E. apply Z. assumption.
Qed.

Lemma logdelta_mono eps eps' a r r' : order_ok a -> finpos r -> finpos r' -> xleb r r' = true -> eps <= eps' ->
  xleb (logdelta_of_order (Fin eps') a r) (logdelta_of_order (Fin eps) a r') = true.
Proof.
  intros Ha F F' H He.
  assert (BH : forall x y, x <= y -> xleb (log_bh x) (log_bh y) = true).
  { intros x y L. unfold log_bh. destruct (Rleb_spec x 0); [destruct (Rleb y 0); reflexivity|].
    rewrite Rleb_false by lra. apply xleb_Fin.
    assert (exp (- x) < 1) by (rewrite <- exp_0; apply exp_increasing; lra).
    pose proof (exp_le (- y) (- x) ltac:(lra)).
    pose proof (ln_le_mono (1 - exp (- x)) (1 - exp (- y)) ltac:(lra) ltac:(lra)). lra. }
  destruct r' as [r'| | |]; try contradiction.
  - destruct r as [r| | |]; try contradiction; try discriminate H. apply xleb_Fin in H.
    destruct a as [a| | |]; try contradiction.
    + rewrite !logdelta_Fin by assumption. cbn in Ha. destruct (Rltb_spec (101 / 100) a).
      * apply pymin_mono; [apply BH; assumption|]. apply xleb_Fin.
        assert ((a - 1) * (r - eps' + ln (1 - / a)) <= (a - 1) * (r' - eps + ln (1 - / a))); [|lra].
        apply Rmult_le_compat_l; lra.
      * apply BH; assumption.
    + rewrite !logdelta_inf_order. destruct (Rltb_spec r eps').
      * destruct (Rltb r' eps); [reflexivity|]. unfold log_bh. destruct (Rleb r' 0); reflexivity.
      * rewrite Rltb_false by lra. apply BH; assumption.
  - rewrite (logdelta_PInf eps) by (destruct a; assumption).
    destruct r as [r| | |]; try contradiction.
    + destruct a as [a| | |]; try contradiction.
      * rewrite logdelta_Fin by assumption. destruct (Rltb _ _); [|apply log_bh_top].
        eapply xleb_trans; [apply pymin_le_l, log_bh_num | apply log_bh_top].
      * rewrite logdelta_inf_order. destruct (Rltb _ _); [reflexivity | apply log_bh_top].
    + rewrite logdelta_PInf by (destruct a; assumption). apply xleb_refl. discriminate.
Qed.

(** ** Vectors *)

Lemma vec_le_partner (orders s s' : list xr) a r' : vec_le s s' -> In (a, r') (combine orders s') ->
  exists r, In (a, r) (combine orders s) /\ xleb r r' = true.
Proof.
  intros L. revert orders; induction L as [|x y s s' Hxy L IH]; intros orders I.
  - destruct orders; cbn in I; contradiction.
  - destruct orders as [|o orders]; [contradiction|]. cbn in I. destruct I as [[= <- <-]|I].
    + exists x. split; [left; reflexivity | assumption].
    + destruct (IH orders I) as (r & I' & Hr). exists r. split; [right; assumption | assumption].
Qed.
Lemma vec_pos_in (orders s : list xr) a r : vec_pos s -> In (a, r) (combine orders s) -> xpos r.
Proof. intros P I. apply in_combine_r in I. unfold vec_pos in P. rewrite Forall_forall in P. apply P; assumption. Qed.
Lemma vec_le_pos s s' : vec_pos s -> vec_le s s' -> vec_pos s'.
Proof.
  intros P L. induction L; [constructor|]. inversion P; subst. constructor; [|apply IHL; assumption].
  unfold xpos in *. eapply xleb_trans; eassumption.
Qed.

Lemma epsilon_mono orders s s' delta e e' o o' :
  real_orders orders -> vec_pos s -> vec_le s s' ->
  compute_epsilon orders s delta = Ok (e, o) -> compute_epsilon orders s' delta = Ok (e', o') ->
  xleb e e' = true.
Proof.
  intros Ro P L H H'. pose proof (vec_le_pos _ _ P L) as P'.
  destruct (Rtotal_order delta 0) as [Hd|[Hd|Hd]].
  - unfold compute_epsilon in H. rewrite Rltb_true in H by assumption. discriminate.
  - subst delta. unfold compute_epsilon in H, H'. rewrite Rltb_false, Reqb_refl in H, H' by lra.
    destruct (forallb _ s') eqn:F.
    + assert (F' : forallb (fun r => xeqb r (Fin 0)) s = true).
      { clear - P L F. induction L as [|x y s s' Hxy L IH]; [reflexivity|]. inversion P as [|? ? Px Ps]; subst.
        cbn [forallb] in *. apply andb_true_iff in F. destruct F as [F1 F2]. apply andb_true_iff. split; [|apply IH; assumption].
        destruct y as [y| | |]; try discriminate F1. cbn in F1. destruct (Reqb_spec y 0) as [->|]; [|discriminate].
        destruct x as [x| | |]; try discriminate Hxy; try discriminate Px. apply xleb_Fin in Hxy. apply xpos_Fin in Px.
        cbn. apply Reqb_true. lra. }
      rewrite F' in H. injection H as <- <-. injection H' as <- <-. apply xleb_refl. discriminate.
    + injection H' as <- <-. destruct (forallb _ s); injection H as <- <-; reflexivity.
  - pose proof (compute_epsilon_orders _ _ _ _ Hd H) as O1. pose proof (compute_epsilon_orders _ _ _ _ Hd H') as O1'.
    assert (Fp : forall a r, In (a, r) (combine orders s) -> finpos r) by (intros ? ? Hi; exact (xpos_finpos _ (vec_pos_in _ _ _ _ P Hi))).
    assert (Fp' : forall a r, In (a, r) (combine orders s') -> finpos r) by (intros ? ? Hi; exact (xpos_finpos _ (vec_pos_in _ _ _ _ P' Hi))).
    apply epsilon_spec in H; [|assumption | apply eps_all_orders; assumption].
    apply epsilon_spec in H'; [|assumption | apply eps_all_orders; assumption].
    destruct H as (_ & _ & r & I & -> & B). destruct H' as (_ & _ & r' & I' & -> & _).
    destruct (vec_le_partner orders s s' o' r' L I') as (q & Iq & Lq).
    eapply xleb_trans; [apply pymax_mono; [discriminate | apply (B _ _ Iq)]|].
    destruct (Ro o') as [x ->]; [eapply in_combine_l; eassumption|].
    apply eps_order_mono_rdp; [assumption | apply ltb1, (O1' _ _ I') | apply (Fp _ _ Iq) | apply (Fp' _ _ I') | assumption].
Qed.

Lemma epsilon_mono_delta orders s delta delta' e e' o o' :
  real_orders orders -> vec_pos s -> delta <= delta' ->
  compute_epsilon orders s delta = Ok (e, o) -> compute_epsilon orders s delta' = Ok (e', o') ->
  xleb e' e = true.
Proof.
  intros Ro P L H H'.
  assert (Fp : forall a r, In (a, r) (combine orders s) -> finpos r) by (intros ? ? Hi; exact (xpos_finpos _ (vec_pos_in _ _ _ _ P Hi))).
  destruct (Rtotal_order delta 0) as [Hd|[Hd|Hd]].
  - unfold compute_epsilon in H. rewrite Rltb_true in H by assumption. discriminate.
  - subst delta. pose proof (epsilon_range _ _ _ _ _ Ro Fp H') as Rg.
    assert (T : xleb e' PInf = true) by (destruct Rg as [->|(x & -> & _)]; reflexivity).
    destruct (Req_dec delta' 0) as [->|N].
    { rewrite H in H'. injection H' as <- <-. destruct Rg as [->|(x & -> & _)]; apply xleb_refl; discriminate. }
    unfold compute_epsilon in H. rewrite Rltb_false, Reqb_refl in H by lra.
    destruct (forallb _ s) eqn:F; injection H as <- <-; [|assumption].
    assert (Hd' : 0 < delta') by lra.
    pose proof (compute_epsilon_orders _ _ _ _ Hd' H') as O1'.
    apply epsilon_spec in H'; [|assumption | apply eps_all_orders; assumption].
    destruct H' as (_ & _ & r & I & -> & _).
    rewrite forallb_forall in F. pose proof (F r ltac:(eapply in_combine_r; eassumption)) as Z.
    destruct r as [r| | |]; try discriminate Z. cbn in Z. destruct (Reqb_spec r 0) as [->|]; [|discriminate].
    destruct (Ro o') as [x ->]; [eapply in_combine_l; eassumption|].
    rewrite eps_of_order_Fin by (try assumption; apply ltb1, (O1' _ _ I)).
    rewrite (Rltb_false 0 0) by lra. rewrite Ropp_0, exp_0, Rltb_true by nra.
    unfold pymax. cbn. rewrite Rltb_false by lra. apply xleb_refl. discriminate.
  - assert (Hd' : 0 < delta') by lra.
    pose proof (compute_epsilon_orders _ _ _ _ Hd H) as O1. pose proof (compute_epsilon_orders _ _ _ _ Hd' H') as O1'.
    apply epsilon_spec in H; [|assumption | apply eps_all_orders; assumption].
    apply epsilon_spec in H'; [|assumption | apply eps_all_orders; assumption].
    destruct H as (_ & _ & r & I & -> & _). destruct H' as (_ & _ & r' & I' & -> & B).
    eapply xleb_trans; [apply pymax_mono; [discriminate | apply (B _ _ I)]|].
    destruct (Ro o) as [x ->]; [eapply in_combine_l; eassumption|].
    apply eps_order_mono_delta; [assumption | assumption | apply ltb1, (O1 _ _ I) | apply (Fp _ _ I)].
Qed.

(** delta grows with the bounds and shrinks with epsilon. *)
Lemma delta_mono orders s s' eps eps' d d' o o' :
  good_orders orders -> vec_pos s -> vec_le s s' -> eps <= eps' ->
  compute_delta orders s (Fin eps') = Ok (d, o) -> compute_delta orders s' (Fin eps) = Ok (d', o') ->
  xleb d d' = true.
Proof.
  intros Ro P L He H H'. pose proof (vec_le_pos _ _ P L) as P'.
  pose proof (compute_delta_orders _ _ _ _ H) as O1. pose proof (compute_delta_orders _ _ _ _ H') as O1'.
  assert (Fp : forall a r, In (a, r) (combine orders s) -> finpos r) by (intros ? ? Hi; exact (xpos_finpos _ (vec_pos_in _ _ _ _ P Hi))).
  assert (Fp' : forall a r, In (a, r) (combine orders s') -> finpos r) by (intros ? ? Hi; exact (xpos_finpos _ (vec_pos_in _ _ _ _ P' Hi))).
  apply delta_spec in H; [|apply delta_all_orders; assumption].
  apply delta_spec in H'; [|apply delta_all_orders; assumption].
  destruct H as (_ & _ & _ & r & I & -> & B). destruct H' as (_ & _ & _ & r' & I' & -> & _).
  destruct (vec_le_partner orders s s' o' r' L I') as (q & Iq & Lq).
  apply pymin_mono; [|apply xleb_Fin; lra].
  apply xexp_mono. eapply xleb_trans; [apply (B _ _ Iq)|].
  apply logdelta_mono; try assumption; [|apply (Fp _ _ Iq) | apply (Fp' _ _ I')].
  apply good_order_ok; [apply Ro; eapply in_combine_l; eassumption | apply (O1' _ _ I')].
Qed.

(** ** An infinite order *)
Definition coin : exper :=
  {| outcome := bool; outs := [true; false];
     prP := fun b => (if b then exp 1 else 1) / (1 + exp 1);
     prQ := fun b => (if b then 1 else exp 1) / (1 + exp 1) |}.

Lemma coin_valid : valid coin.
Proof.
  pose proof (exp_pos 1). split; [|split].
  - intros [|] _; cbn; split; left; apply Rdiv_lt_0_compat; lra.
  - cbn. field. lra.
  - cbn. field. lra.
Qed.
Lemma exp1_gt2 : 2 < exp 1.
Proof. pose proof (exp_ineq1 1 ltac:(lra)). lra. Qed.

Lemma coin_max o : prP coin o <= exp 1 * prQ coin o /\ prQ coin o <= exp 1 * prP coin o.
Proof.
  pose proof exp1_gt2. assert (0 < / (1 + exp 1)) by (apply Rinv_0_lt_compat; lra).
  destruct o; cbn; unfold Rdiv; split.
  - apply Req_le. ring.
  - rewrite Rmult_1_l, <- Rmult_assoc. rewrite <- (Rmult_1_l (/ (1 + exp 1))) at 1.
    apply Rmult_le_compat_r; nra.
  - rewrite Rmult_1_l, <- Rmult_assoc. rewrite <- (Rmult_1_l (/ (1 + exp 1))) at 1.
    apply Rmult_le_compat_r; nra.
  - apply Req_le. ring.
Qed.

Lemma coin_pos o : 0 < prP coin o /\ 0 < prQ coin o.
Proof. pose proof (exp_pos 1). destruct o; cbn; split; apply Rdiv_lt_0_compat; lra. Qed.

(** A bound on the max divergence bounds the divergence of order 2. *)
Lemma max_order2 E r : valid E -> absolutely_continuous E ->
  (forall o, In o (outs E) -> prP E o <= exp r * prQ E o) -> renyi_bounded E (Fin 2) (Fin r).
Proof.
  intros V AC H. split; [assumption|]. split; [lra|].
  apply renyi_moment_le; [assumption | assumption | lra|].
  replace ((2 - 1) * r) with r by ring. unfold renyi_moment.
  apply Rle_trans with (rsum (fun o => exp r * prP E o) (outs E));
    [|rewrite rsum_scal, (P_sum E V); lra]. apply rsum_le. intros o Ho.
  destruct (Reqb_spec (prP E o) 0) as [Z|N]; [rewrite Z; lra|].
  destruct (Q_gt E V AC o Ho N) as [HP HQ]. rewrite (Rmult_comm (exp r)).
  apply Rmult_le_compat_l; [lra|]. replace (2 - 1) with 1 by ring.
  rewrite Rpower_1 by (apply Rdiv_lt_0_compat; assumption).
  apply (Rmult_le_reg_r (prQ E o)); [assumption|].
  replace (prP E o / prQ E o * prQ E o) with (prP E o) by (field; lra). apply H. assumption.
Qed.

Lemma coin_ac : absolutely_continuous coin /\ absolutely_continuous (swap coin).
Proof. split; intros o _ Z; destruct (coin_pos o); cbn in *; lra. Qed.

Lemma coin_curve : rdp_curve [Fin 2; PInf] [Fin 1; Fin 1] coin.
Proof.
  split; [exact coin_valid|]. split; [reflexivity|].
  assert (A : renyi_bounded coin (Fin 2) (Fin 1)).
  { apply max_order2; [exact coin_valid | apply coin_ac | intros o _; apply coin_max]. }
  assert (B : renyi_bounded (swap coin) (Fin 2) (Fin 1)).
  { apply max_order2; [apply valid_swap, coin_valid | apply coin_ac | intros o _; apply (coin_max o)]. }
  intros a r [[= <- <-]|[[= <- <-]|[]]]; split; try assumption.
  - split; [apply coin_ac | intros o _; apply coin_max].
  - split; [apply coin_ac | intros o _; apply (coin_max o)].
Qed.

Lemma coin_epsilon : compute_epsilon [Fin 2; PInf] [Fin 1; Fin 1] (1/10) = Ok (Fin 0, PInf).
Proof.
  unfold compute_epsilon. rewrite Rltb_false, Reqb_false by lra. cbn [length Nat.eqb negb combine map_res fst snd bind xltb].
  rewrite Rltb_false by lra. cbn [bind]. 
  assert (E2 : eps_of_order (1 / 10) PInf (Fin 1) = NaN).
  { unfold eps_of_order. cbn. rewrite (Rltb_false 1 0) by lra.
    pose proof exp1_gt2 as G. rewrite (exp_Ropp 1).
    assert (/ exp 1 < / 2) by (apply Rinv_lt_contravar; lra).
    rewrite Rltb_false by lra. unfold inf_times. rewrite Rltb_true by lra. cbn. reflexivity. }
  rewrite E2. cbn [bind argmin argmin_from fst].
  destruct (eps_of_order (1 / 10) (Fin 2) (Fin 1)) eqn:E; try reflexivity.
  exfalso. refine (eps_of_order_num (1/10) 2 (Fin 1) _ _ _ E); cbn; try lra; exact I.
Qed.

Lemma coin_not_dp : ~ dp_both coin 0 (1/10).
Proof.
  intros [H _]. apply dp_iff_hockey in H.
  pose proof exp1_gt2 as G.
  assert (X : hockey_stick coin 0 >= exp 1 / (1 + exp 1) - 1 / (1 + exp 1)).
  { unfold hockey_stick. cbn [outs coin rsum fold_right map]. rewrite exp_0.
    cbn [rsum]. pose proof (pos_ge (prP coin true - 1 * prQ coin true)) as P1.
    pose proof (pos_nonneg (prP coin false - 1 * prQ coin false)) as P2.
    cbn in *. lra. }
  replace (exp 1 / (1 + exp 1) - 1 / (1 + exp 1)) with (1 - 2 / (1 + exp 1)) in X by (field; lra).
  assert (/ (1 + exp 1) < / 3) by (apply Rinv_lt_contravar; lra). unfold Rdiv in X. lra.
Qed.
