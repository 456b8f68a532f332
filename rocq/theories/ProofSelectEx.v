(** Instances of the theorem on repeated selection. *)
From Verif Require Import Base XReal Exn SpecDP SpecRenyi SpecRdp SpecSelect ModelRdp ProofDP ProofRenyi ProofGamma ProofSelect ProofSelectLaw ProofSelectEnd ProofSelectSound.
Local Arguments Rltb : simpl never.
Local Arguments Rleb : simpl never.
Local Arguments Reqb : simpl never.

Lemma selects_exists pk f E (rank : outcome E -> nat) : (forall x, 0 <= x <= 1 -> infinite_sum (fun k => pk k * x ^ k) (f x)) -> valid E ->
  NoDup (map rank (outs E)) -> exists A, selects pk E A.
Proof.
  intros F (V1 & SP & SQ) N.
  assert (ONE : forall pr o, (forall x, In x (outs E) -> 0 <= pr x) -> rsum pr (outs E) = 1 -> In o (None :: map Some (outs E)) ->
     infinite_sum (fun k => pk k * best_prob (outs E) rank pr k o)
       (match o with None => f 0 | Some y => f (below rank pr (outs E) y + pr y) - f (below rank pr (outs E) y) end)).
  { intros pr o P S I. destruct o as [y|].
    - assert (Iy : In y (outs E)) by (destruct I as [I|I]; [discriminate|]; apply in_map_iff in I; destruct I as (z & [= ->] & Iz); exact Iz).
      destruct (below_range rank pr (outs E) y 0 P S N Iy ltac:(lra)) as [R1 R2]. destruct (below_range rank pr (outs E) y 1 P S N Iy ltac:(lra)) as [_ R3].
      pose proof (P y Iy) as R4. rewrite Rmult_1_l in R3. rewrite Rmult_0_l, Rplus_0_r in R2.
      replace (f (below rank pr (outs E) y + pr y) - f (below rank pr (outs E) y)) with (f (below rank pr (outs E) y + pr y) + (-1) * f (below rank pr (outs E) y)) by ring.
      eapply infsum_ext; [|apply (infsum_plus _ (fun k => (-1) * (pk k * below rank pr (outs E) y ^ k)) _ ((-1) * f (below rank pr (outs E) y)) (F (below rank pr (outs E) y + pr y) ltac:(lra)) (infsum_scal _ _ _ (F (below rank pr (outs E) y) ltac:(lra))))].
      intros k. cbn beta. rewrite (best_some rank _ _ _ _ N Iy). ring.
    - eapply infsum_ext; [|apply (F 0); lra]. intros k. cbn beta. rewrite best_none. reflexivity. }
  eexists. exists rank. eexists. eexists. split; [exact N|]. split; [|reflexivity]. intros o Io. split; apply ONE; try assumption; intros x Ix; apply (V1 x Ix).
Qed.

(** ** The distributions of the number of runs *)
Lemma rising_pos s k : 0 <= s -> 0 <= rising s k.
Proof.
  intros Hs. induction k as [|k IH]; [cbn; lra|]. cbn [rising]. apply Rmult_le_pos; [exact IH|]. pose proof (pos_INR k). apply Rmult_le_pos; [lra|].
  left. apply Rinv_0_lt_compat. lra.
Qed.
Lemma tnb_nonneg s g k : 0 <= s -> 0 < g <= 1 -> 0 <= tnb_runs s g k.
Proof.
  intros Hs Hg. unfold tnb_runs. destruct (Reqb_spec g 1) as [|G]; [destruct (_ =? _)%nat; lra|]. destruct (Nat.eqb_spec k 0) as [|K]; [lra|].
  assert (P : 0 <= (1 - g) ^ k) by (apply pow_le; lra). assert (Lg : ln g < 0) by (rewrite <- ln_1; apply ln_increasing; lra).
  destruct (Reqb_spec s 0) as [S0|S0].
  - apply Rmult_le_pos; [exact P|]. left. apply Rinv_0_lt_compat. apply Rmult_lt_0_compat; [apply lt_0_INR; lia|].
    unfold Rdiv. rewrite Rmult_1_l, ln_Rinv by lra. lra.
  - apply Rmult_le_pos; [|apply rising_pos, Hs]. apply Rmult_le_pos; [exact P|]. left. apply Rinv_0_lt_compat.
    assert (1 < Rpower g (- s)); [|lra]. unfold Rpower. rewrite <- exp_0 at 1. apply exp_increasing. nra.
Qed.
Lemma runs_distributions s g mu : 0 <= s -> 0 < g <= 1 -> 0 <= mu ->
  (forall k, 0 <= tnb_runs s g k) /\ infinite_sum (tnb_runs s g) 1 /\
  infinite_sum (fun k => INR k * tnb_runs s g k) (if Reqb g 1 then 1 else tnb_true_mean g s) /\
  (forall k, 0 <= poisson_runs mu k) /\ infinite_sum (poisson_runs mu) 1 /\ infinite_sum (fun k => INR k * poisson_runs mu k) mu.
Proof.
  intros Hs Hg Hm. split; [intros k; apply tnb_nonneg; assumption|].
  split; [|split; [apply tnb_law_mean; assumption|]].
  - pose proof (tnb_pgf s g Hs Hg 1 ltac:(lra)) as H. rewrite tnb_f1 in H by assumption. eapply infsum_ext; [|exact H]. intros k. cbn beta. rewrite pow1. ring.
  - split; [|split; [|apply poisson_mean]].
    + intros k. unfold poisson_runs. apply Rmult_le_pos; [apply Rmult_le_pos; [left; apply exp_pos | apply pow_le, Hm]|]. left. apply Rinv_0_lt_compat, INR_fact_lt_0.
    + pose proof (poisson_pgf mu 1) as H. rewrite Rminus_diag_eq, Rmult_0_r, exp_0 in H by reflexivity. eapply infsum_ext; [|exact H]. intros k. cbn beta. rewrite pow1. ring.
Qed.

(** A biased coin, and the other way round. *)
Definition coin : exper := {| outcome := bool; outs := [true; false]; prP := fun b : bool => if b then 3/4 else 1/4; prQ := fun b : bool => if b then 1/4 else 3/4 |}.
Lemma coin_valid : valid coin.
Proof. split; [|cbn; lra]. intros [] _; cbn; lra. Qed.
Lemma coin_curve : rdp_curve [Fin 2; PInf] [Fin (ln 3); Fin (ln 3)] coin.
Proof.
  split; [apply coin_valid|]. split; [reflexivity|].
  assert (I : rdp_bounded coin PInf (Fin (ln 3))).
  { split; (split; [intros [] _; cbn; lra|]; intros [] _; rewrite exp_ln by lra; cbn; lra). }
  intros a r [[= <- <-]|[[= <- <-]|[]]]; [|exact I]. destruct I as [I1 I2].
  split; eapply bounded_order; try eassumption; try (apply valid_swap); try apply coin_valid; try reflexivity; cbn; lra.
Qed.
Lemma ln_lt_le x y : 0 < x < y -> ln x < ln y. Proof. intros. apply ln_increasing; lra. Qed.
Lemma geometric_value fuel : rdp_repeat_and_select fuel [Fin 2; PInf] [Fin (ln 3); Fin (ln 3)] (Fin 2) (Fin 1) = Ok [Fin (ln 18); Fin (ln 18)].
Proof.
  assert (L6 : ln 6 = ln 2 + ln 3) by (rewrite <- ln_mult by lra; f_equal; lra).
  assert (L18 : ln 18 = ln 3 + ln 6) by (rewrite <- ln_mult by lra; f_equal; lra).
  assert (P2 : 0 < ln 2) by (rewrite <- ln_1; apply ln_lt_le; lra). assert (L23 : ln 2 < ln 3) by (apply ln_lt_le; lra).
  assert (Lg : ln (1 / 2) = - ln 2) by (replace (1 / 2) with (/ 2) by lra; apply ln_Rinv; lra).
  unfold rdp_repeat_and_select, gamma_tnb. cbn [xltb]. rewrite (Rltb_false 1 0), (Rltb_false 2 1), Reqb_true by lra. cbn [length Nat.eqb negb bind].
  rewrite Rleb_false by lra. rewrite Lg. cbn [combine map fst snd].
  replace (xsub (xmul (xsub (Fin 1) (xdiv (Fin 1) (Fin 2))) (Fin (ln 3))) (xdiv (Fin (- ln 2)) (Fin 2))) with (Fin (ln 6 / 2))
    by (cbn [xdiv]; rewrite Reqb_false by lra; cbn; f_equal; lra).
  replace (xsub (xmul (xsub (Fin 1) (xdiv (Fin 1) PInf)) (Fin (ln 3))) (xdiv (Fin (- ln 2)) PInf)) with (Fin (ln 3)) by (cbn; f_equal; lra).
  assert (M : npmin [Fin (ln 6 / 2); Fin (ln 3)] = Ok (Fin (ln 6 / 2))) by (unfold npmin; cbn; rewrite Rltb_false by lra; reflexivity).
  rewrite M. cbn [bind xmul]. replace ((1 + 1) * (ln 6 / 2)) with (ln 6) by lra.
  assert (X2 : rs_tnb_order (Fin 2) (Fin (ln 6)) (Fin 2, Fin (ln 3)) = Fin (ln 2 + ln 18)).
  { unfold rs_tnb_order. cbn [xltb]. rewrite Rltb_true by lra. cbn [xlog xsub xadd xneg xdiv]. rewrite Reqb_false by lra. cbn [xadd]. f_equal. rewrite L18. field_simplify; lra. }
  assert (XI : rs_tnb_order (Fin 2) (Fin (ln 6)) (PInf, Fin (ln 3)) = Fin (ln 18)) by (cbn; f_equal; lra).
  rewrite X2, XI. cbn [combine rs_monotone app filter xleb fst snd map]. rewrite !Rleb_true by lra. cbn [map pymin_list fold_left snd bind app].
  unfold pymin at 1. cbn [xltb]. rewrite Rltb_true by lra. cbn [bind rs_monotone app filter fst snd xleb map pymin_list fold_left]. reflexivity.
Qed.
Lemma geometric_law : runs_law (Fin 1) 2 (tnb_runs 1 (1/2)).
Proof.
  exists (1/2), 2. split; [lra|]. split; [reflexivity|]. split; [|split; [lra | right; left; reflexivity]].
  assert (H := tnb_law_mean 1 (1/2) ltac:(lra) ltac:(lra)). replace (tnb_m 1 (1/2)) with 2 in H; [exact H|].
  unfold tnb_m. rewrite Reqb_false by lra. unfold tnb_true_mean. rewrite Reqb_false, Rpower_1 by lra. field.
Qed.
(** The logarithmic distribution with parameter 1/2 has mean 1 / ln 2. *)
Lemma logarithmic_law : runs_law (Fin 0) 3 (tnb_runs 0 (1/2)).
Proof.
  assert (L : / 2 < ln 2) by exact ln_lt_2.
  assert (M : tnb_m 0 (1/2) = / ln 2).
  { unfold tnb_m, tnb_true_mean. rewrite Reqb_false, Reqb_true by lra. replace (1 / (1 / 2)) with 2 by field. field. lra. }
  assert (M2 : / ln 2 < 2) by (apply Rlt_le_trans with (/ / 2); [apply Rinv_lt_contravar; lra | rewrite Rinv_inv; lra]).
  exists (1/2), (/ ln 2). split; [lra|]. split; [reflexivity|]. split; [rewrite <- M; apply tnb_law_mean; lra|]. split; [lra|]. right. right.
  assert (6 / 10 ^ 90 <= 1 / 2).
  { assert (P : 0 < 10 ^ 90) by (apply pow_lt; lra). apply (Rmult_le_reg_r (10 ^ 90)); [exact P|]. unfold Rdiv. rewrite Rmult_assoc, Rinv_l, Rmult_1_r by (intros e; rewrite e in P; lra).
    assert (Q : 10 ^ 2 <= 10 ^ 90) by (apply Rle_pow; [lra | lia]). lra. }
  assert (0 < / ln 2) by (apply Rinv_0_lt_compat; lra). generalize dependent (6 / 10 ^ 90). intros x Hx. nra.
Qed.
Lemma poisson_law mu : runs_law PInf mu (poisson_runs mu).
Proof. intros k. reflexivity. Qed.

(** The function has a value for the finite shapes. *)
Lemma monotone_total orders todo : forall done, (forall a x, In (a, x) todo -> order_ok a) -> exists v, rs_monotone orders done todo = Ok v.
Proof.
  induction todo as [|(a, x) todo IH]; intros done H; [eexists; reflexivity|]. cbn [rs_monotone].
  assert (N : map snd (filter (fun bx => xleb a (fst bx)) (done ++ (a, x) :: todo)) <> []).
  { assert (I : In x (map snd (filter (fun bx => xleb a (fst bx)) (done ++ (a, x) :: todo)))).
    { apply in_map_iff. exists (a, x). split; [reflexivity|]. apply filter_In. split; [apply in_or_app; right; left; reflexivity|].
      specialize (H a x (or_introl eq_refl)). destruct a as [a| | |]; try contradiction; cbn; [apply Rleb_true; lra | reflexivity]. }
    intros e. rewrite e in I. contradiction. }
  destruct (map snd _) as [|y l]; [congruence|]. cbn [pymin_list bind]. apply IH. intros b z I. apply (H b z). right. exact I.
Qed.
Lemma select_total orders rdp s mean fuel g : (forall a, In a orders -> order_ok a) -> orders <> [] -> length orders = length rdp -> 0 <= s -> 1 <= mean ->
  gamma_tnb fuel s (Fin mean) (1 / 10 ^ 9) = Ok g -> 0 < g -> exists v, rdp_repeat_and_select fuel orders rdp (Fin mean) (Fin s) = Ok v.
Proof.
  intros HO N L Hs Hm G P. unfold rdp_repeat_and_select. cbn [xltb]. rewrite !Rltb_false by lra. rewrite (proj2 (Nat.eqb_eq _ _) L). cbn [negb]. rewrite G. cbn [bind].
  rewrite Rleb_false by lra. unfold npmin, argmin. destruct orders as [|a orders]; [congruence|]. destruct rdp as [|r rdp]; [discriminate|]. cbn [combine map bind].
  apply monotone_total. intros b x I. destruct I as [[= <- _]|I]; [apply HO; left; reflexivity|]. apply HO. right. exact (in_combine_l _ _ _ _ I).
Qed.
Lemma poisson_total fuel : exists v, rdp_repeat_and_select fuel [Fin 2; PInf] [Fin (ln 3); Fin (ln 3)] (Fin 2) PInf = Ok v.
Proof.
  unfold rdp_repeat_and_select. cbn [xltb]. rewrite Rltb_false by lra. cbn [length Nat.eqb negb combine map_res]. unfold rs_poisson_order. cbn [xleb]. rewrite Rleb_false by lra.
  cbn [xsub xadd xneg xdiv]. rewrite Reqb_false by lra. unfold compute_delta.
  assert (X : xltb (xlog1p (Fin (1 / (2 + - (1))))) (Fin 0) = false).
  { cbn [xlog1p xadd xlog xltb]. apply Rltb_false. rewrite <- ln_1. replace (2 + - (1)) with 1 by lra. left. apply ln_increasing; lra. }
  assert (Y : xltb (xlog1p (Fin 0)) (Fin 0) = false) by (cbn [xlog1p xadd xlog xltb]; apply Rltb_false; rewrite Rplus_0_r, ln_1; lra).
  cbn [bind]. rewrite X, Y. cbn [length Nat.eqb negb combine map_res fst snd xltb]. rewrite Rltb_false by lra. cbn [bind argmin]. eexists. reflexivity.
Qed.

(** ** The hypotheses are met *)
Lemma coin_rank : NoDup (map (fun b : bool => if b then 1%nat else 0%nat) (outs coin)).
Proof. repeat constructor; cbn; intuition discriminate. Qed.
Lemma geometric_example fuel : let orders := [Fin 2; PInf] in let rdp := [Fin (ln 3); Fin (ln 3)] in exists A,
  (forall a, In a orders -> order_ok a) /\ rdp_curve orders rdp coin /\
  rdp_repeat_and_select fuel orders rdp (Fin 2) (Fin 1) = Ok [Fin (ln 18); Fin (ln 18)] /\
  runs_law (Fin 1) 2 (tnb_runs 1 (1/2)) /\ selects (tnb_runs 1 (1/2)) coin A.
Proof.
  cbn zeta. destruct (selects_exists (tnb_runs 1 (1/2)) _ coin _ (fun x => tnb_pgf 1 (1/2) ltac:(lra) ltac:(lra) x) coin_valid coin_rank) as [A HA]. exists A.
  split; [intros a [<-|[<-|[]]]; cbn; try lra; exact Logic.I|]. split; [exact coin_curve|]. split; [apply geometric_value|]. split; [exact geometric_law | exact HA].
Qed.
Lemma logarithmic_example : let orders := [Fin 2; PInf] in let rdp := [Fin (ln 3); Fin (ln 3)] in exists fuel v A,
  (forall a, In a orders -> order_ok a) /\ rdp_curve orders rdp coin /\
  rdp_repeat_and_select fuel orders rdp (Fin 3) (Fin 0) = Ok v /\
  runs_law (Fin 0) 3 (tnb_runs 0 (1/2)) /\ selects (tnb_runs 0 (1/2)) coin A.
Proof.
  cbn zeta. assert (HO : forall a, In a [Fin 2; PInf] -> order_ok a) by (intros a [<-|[<-|[]]]; cbn; try lra; exact Logic.I).
  assert (T : 0 < 1 / 10 ^ 9) by lra.
  destruct (gamma_terminates 0 3 (1 / 10 ^ 9) ltac:(lra) ltac:(lra) T) as (fuel & g & G).
  destruct (gamma_sound fuel 0 3 (1 / 10 ^ 9) g ltac:(lra) G) as [Pg _].
  destruct (select_total [Fin 2; PInf] [Fin (ln 3); Fin (ln 3)] 0 3 fuel g HO ltac:(discriminate) eq_refl ltac:(lra) ltac:(lra) G ltac:(lra)) as [v Hv].
  destruct (selects_exists (tnb_runs 0 (1/2)) _ coin _ (fun x => tnb_pgf 0 (1/2) ltac:(lra) ltac:(lra) x) coin_valid coin_rank) as [A HA]. exists fuel, v, A.
  split; [exact HO|]. split; [exact coin_curve|]. split; [exact Hv|]. split; [exact logarithmic_law | exact HA].
Qed.
Lemma poisson_example fuel : let orders := [Fin 2; PInf] in let rdp := [Fin (ln 3); Fin (ln 3)] in exists v A,
  (forall a, In a orders -> order_ok a) /\ rdp_curve orders rdp coin /\
  rdp_repeat_and_select fuel orders rdp (Fin 2) PInf = Ok v /\
  runs_law PInf 2 (poisson_runs 2) /\ selects (poisson_runs 2) coin A.
Proof.
  cbn zeta. destruct (poisson_total fuel) as [v Hv].
  destruct (selects_exists (poisson_runs 2) _ coin _ (fun x _ => poisson_pgf 2 x) coin_valid coin_rank) as [A HA]. exists v, A.
  split; [intros a [<-|[<-|[]]]; cbn; try lra; exact Logic.I|]. split; [exact coin_curve|]. split; [exact Hv|]. split; [apply poisson_law | exact HA].
Qed.
