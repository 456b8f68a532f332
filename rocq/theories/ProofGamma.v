(** Inverting the mean of the truncated negative binomial distribution. *)
From Verif Require Import Base XReal Exn TypesEvent TypesRelation ModelMake ModelRdp SpecRdp ProofRdpMath ProofRenyi ProofTaylor.
Local Arguments Rltb : simpl never.
Local Arguments Rleb : simpl never.
Local Arguments Reqb : simpl never.

Lemma Rabs_le_between x a : Rabs x <= a <-> - a <= x <= a.
Proof. split; [|apply Rabs_le]. intros H. unfold Rabs in H. destruct (Rcase_abs x); lra. Qed.

(** ** The mean *)
Lemma tiny : 0 < 1 / 10 ^ 90 <= 1 / 1000.
Proof.
  split; [apply Rdiv_lt_0_compat; [lra | apply pow_lt; lra]|].
  change 90%nat with (3 + 87)%nat. rewrite pow_add.
  assert (1 <= 10 ^ 87) by (apply pow_R1_Rle; lra).
  unfold Rdiv. rewrite !Rmult_1_l. apply Rinv_le_contravar; [lra|].
  replace 1000 with (10 ^ 3 * 1) by ring. apply Rmult_le_compat_l; [apply pow_le; lra | assumption].
Qed.

Lemma expm1_range x : x < 0 -> 0 < (exp x - 1) / x <= 1.
Proof.
  intros H. assert (E : exp x < 1) by (rewrite <- exp_0; apply exp_increasing; assumption).
  replace ((exp x - 1) / x) with ((1 - exp x) / - x) by (field; lra).
  split; [apply Rdiv_lt_0_compat; lra|]. apply (Rmult_le_reg_r (- x)); [lra|].
  replace ((1 - exp x) / - x * - x) with (1 - exp x) by (field; lra).
  pose proof (exp_ineq1 x ltac:(lra)). lra.
Qed.
Lemma expm1_taylor_low x : -1/10 <= x < 0 -> 9/10 <= (exp x - 1) / x.
Proof.
  intros H. replace ((exp x - 1) / x) with ((1 - exp x) / - x) by (field; lra).
  apply (Rmult_le_reg_r (- x)); [lra|].
  replace ((1 - exp x) / - x * - x) with (1 - exp x) by (field; lra).
  assert (A : Rabs x <= 1) by (rewrite Rabs_left by lra; lra).
  pose proof (exp_taylor 2 x A) as T. rewrite (Rabs_left x) in T by lra. cbn in T.
  assert (T' : exp x - (1 + x * 1 / 1 + x * (x * 1) / (1 + 1)) <= 3 * (- x * (- x * (- x * 1)))).
  { pose proof (Rle_abs (exp x - (1 + x * 1 / 1 + x * (x * 1) / (1 + 1)))). lra. }
  nra.
Qed.

Lemma logx_ge1 x : 0 < x < 1 -> 1 <= ln x / (x - 1).
Proof.
  intros H. replace (ln x / (x - 1)) with (- ln x / (1 - x)) by (field; lra).
  apply (Rmult_le_reg_r (1 - x)); [lra|]. replace (- ln x / (1 - x) * (1 - x)) with (- ln x) by (field; lra).
  pose proof (exp_ineq1_le (ln x)) as E. rewrite exp_ln in E by lra. lra.
Qed.

(** relative form *)
Lemma expm1_rel x : x < 0 -> exists d, expm1_over_x x = (exp x - 1) / x * (1 + d) /\ Rabs d <= 2 / 10 ^ 90.
Proof.
  intros H. pose proof (expm1_range x H) as [A0 A1]. pose proof tiny as [T0 T1].
  exists ((expm1_over_x x - (exp x - 1) / x) / ((exp x - 1) / x)).
  split; [field; split; [lra | intros Z; unfold Rdiv in A0; rewrite Z in A0; lra]|].
  destruct (Rlt_dec x (-1/10)) as [L|L].
  - unfold expm1_over_x. rewrite Rltb_true by assumption. cbn [orb].
    replace (((exp x - 1) / x - (exp x - 1) / x) / ((exp x - 1) / x)) with 0.
    + rewrite Rabs_R0. unfold Rdiv in *. lra.
    + unfold Rdiv at 1. ring.
  - pose proof (expm1_taylor_low x ltac:(lra)) as A9. pose proof (expm1_accurate x ltac:(lra)) as AC.
    set (a := (exp x - 1) / x) in *. unfold Rdiv at 1. rewrite Rabs_mult, (Rabs_pos_eq (/ a)) by (left; apply Rinv_0_lt_compat; lra).
    assert (/ a <= 2) by (apply Rle_trans with (/ (9/10)); [apply Rinv_le_contravar; lra | lra]).
    assert (0 < / a) by (apply Rinv_0_lt_compat; lra).
    pose proof (Rabs_pos (expm1_over_x x - a)). unfold Rdiv in *. nra.
Qed.
Lemma logx_rel x : 0 < x < 1 -> exists d, logx_over_xm1 x = ln x / (x - 1) * (1 + d) /\ Rabs d <= 2 / 10 ^ 90.
Proof.
  intros H. pose proof (logx_ge1 x H) as B1. pose proof tiny as [T0 T1].
  pose proof (logx_accurate x ltac:(lra) ltac:(lra)) as AC. set (b := ln x / (x - 1)) in *.
  exists ((logx_over_xm1 x - b) / b). split; [field; lra|].
  unfold Rdiv at 1. rewrite Rabs_mult, (Rabs_pos_eq (/ b)) by (left; apply Rinv_0_lt_compat; lra).
  assert (/ b <= 1) by (rewrite <- Rinv_1; apply Rinv_le_contravar; lra).
  assert (0 < / b) by (apply Rinv_0_lt_compat; lra).
  pose proof (Rabs_pos (logx_over_xm1 x - b)). unfold Rdiv in *. nra.
Qed.

Lemma tnb_total g s : 0 <= s -> 0 < g <= 1 -> exists m, tnb_mean g s = Ok m.
Proof.
  intros Hs Hg. unfold tnb_mean. rewrite Rltb_false, Rleb_false, Rltb_false by lra. cbn [orb].
  destruct (Reqb s 1); [eexists; reflexivity|]. destruct (Reqb s 0); eexists; reflexivity.
Qed.
Lemma ln_neg g : 0 < g < 1 -> ln g < 0.
Proof. intros H. rewrite <- ln_1. apply ln_increasing; lra. Qed.

Lemma tnb_rel g s m : 0 <= s -> 0 < g < 1 -> tnb_mean g s = Ok m ->
  exists d, tnb_true_mean g s = m * (1 + d) /\ Rabs d <= 5 / 10 ^ 90 /\ 0 < m.
Proof.
  intros Hs Hg H. unfold tnb_mean in H. rewrite Rltb_false, Rleb_false, Rltb_false in H by lra. cbn [orb] in H.
  pose proof tiny as [T0 T1]. pose proof (ln_neg g Hg) as Lg. unfold tnb_true_mean.
  assert (T : 0 < / 10 ^ 90 <= 1/1000) by (unfold Rdiv in T0, T1; lra).
  destruct (Reqb_spec s 1) as [->|N1].
  - injection H as <-. rewrite Reqb_false by lra. exists 0. rewrite Rabs_R0. rewrite Rpower_1 by lra.
    split; [field; lra|]. split; [unfold Rdiv; lra | apply Rdiv_lt_0_compat; lra].
  - destruct (logx_rel g Hg) as (b & Eb & Hb). pose proof (logx_ge1 g Hg) as B1.
    assert (Rb : -1/100 <= b <= 1/100) by (apply Rabs_le_between in Hb; unfold Rdiv in *; lra).
    destruct (Reqb_spec s 0) as [->|N0].
    + injection H as <-. exists b. rewrite Eb. split; [|split].
      * replace (ln (1 / g)) with (- ln g) by (unfold Rdiv; rewrite Rmult_1_l, ln_Rinv; lra). field. repeat split; lra.
      * unfold Rdiv in *. lra.
      * apply Rdiv_lt_0_compat; [lra|]. apply Rmult_lt_0_compat; [lra|]. nra.
    + injection H as <-. assert (X : s * ln g < 0) by nra.
      destruct (expm1_rel (s * ln g) X) as (a & Ea & Ha). pose proof (expm1_range _ X) as [A0 A1].
      assert (Ra : -1/100 <= a <= 1/100) by (apply Rabs_le_between in Ha; unfold Rdiv in *; lra).
      assert (Ep : exp (s * ln g) < 1) by (rewrite <- exp_0; apply exp_increasing; assumption).
      exists ((1 + a) * (1 + b) - 1). rewrite Ea, Eb. split; [|split].
      * unfold Rpower. field. repeat split; lra.
      * replace ((1 + a) * (1 + b) - 1) with (a + b + a * b) by ring.
        eapply Rle_trans; [apply Rabs_triang|]. eapply Rle_trans; [apply Rplus_le_compat_r, Rabs_triang|].
        rewrite Rabs_mult. assert (Rabs b <= 1/100) by (apply Rabs_le_between; lra).
        pose proof (Rabs_pos a). pose proof (Rabs_pos b). unfold Rdiv in *. nra.
      * apply Rdiv_lt_0_compat; [lra|]. apply Rmult_lt_0_compat; [apply Rmult_lt_0_compat; [lra|]|]; nra.
Qed.

(** ** Bounds on the mean *)
Lemma pow_lt1 g s : 0 < g < 1 -> 0 < s -> Rpower g s < 1.
Proof. intros Hg Hs. unfold Rpower. rewrite <- exp_0. apply exp_increasing. pose proof (ln_neg g Hg). nra. Qed.

Lemma true_mean_le g s : 0 <= s -> 0 < g < 1 -> tnb_true_mean g s <= (s + 1) / g.
Proof.
  intros Hs Hg. unfold tnb_true_mean. pose proof (ln_neg g Hg) as Lg. destruct (Reqb_spec s 0) as [->|N].
  - replace (ln (1 / g)) with (- ln g) by (unfold Rdiv; rewrite Rmult_1_l, ln_Rinv; lra).
    pose proof (logx_ge1 g Hg) as B. apply (Rmult_le_reg_r (g * - ln g)); [nra|].
    replace ((1 / g - 1) / - ln g * (g * - ln g)) with (1 - g) by (field; lra).
    replace ((0 + 1) / g * (g * - ln g)) with (- ln g) by (field; lra).
    replace (ln g / (g - 1)) with (- ln g / (1 - g)) in B by (field; lra).
    apply (Rmult_le_compat_r (1 - g)) in B; [|lra]. replace (- ln g / (1 - g) * (1 - g)) with (- ln g) in B by (field; lra). lra.
  - pose proof (pow_lt1 g s Hg ltac:(lra)) as P.
    apply (Rmult_le_reg_r (g * (1 - Rpower g s))); [apply Rmult_lt_0_compat; lra|].
    replace (s * (1 / g - 1) / (1 - Rpower g s) * (g * (1 - Rpower g s))) with (s * (1 - g)) by (field; lra).
    replace ((s + 1) / g * (g * (1 - Rpower g s))) with ((s + 1) * (1 - Rpower g s)) by (field; lra).
    destruct (Rle_dec 1 s) as [L|L].
    + assert (Rpower g s <= g).
      { rewrite <- (Rpower_1 g) at 2 by lra. unfold Rpower. apply exp_le. nra. }
      nra.
    + assert (Rpower g s <= 1 - s * (1 - g)); [|nra].
      unfold Rpower. 
      (* concavity: exp (s ln g) <= (1 - s) exp 0 + s exp (ln g) *)
      pose proof (exp_convex s (ln g) 0 ltac:(lra)) as C. rewrite exp_0, exp_ln in C by lra.
      replace (s * ln g + (1 - s) * 0) with (s * ln g) in C by ring. lra.
Qed.

Lemma true_mean_low g s : 0 <= s -> 0 < g < 1 -> (1 - g) / (g * - ln g) <= tnb_true_mean g s.
Proof.
  intros Hs Hg. unfold tnb_true_mean. pose proof (ln_neg g Hg) as Lg. destruct (Reqb_spec s 0) as [->|N].
  - replace (ln (1 / g)) with (- ln g) by (unfold Rdiv; rewrite Rmult_1_l, ln_Rinv; lra).
    apply Req_le. field. lra.
  - pose proof (pow_lt1 g s Hg ltac:(lra)) as P.
    assert (E : 1 - Rpower g s <= s * - ln g).
    { unfold Rpower. pose proof (exp_ineq1_le (s * ln g)). lra. }
    apply (Rmult_le_reg_r (g * - ln g * (1 - Rpower g s))); [repeat apply Rmult_lt_0_compat; lra|].
    replace ((1 - g) / (g * - ln g) * (g * - ln g * (1 - Rpower g s))) with ((1 - g) * (1 - Rpower g s)) by (field; lra).
    replace (s * (1 / g - 1) / (1 - Rpower g s) * (g * - ln g * (1 - Rpower g s))) with ((1 - g) * (s * - ln g)) by (field; lra).
    apply Rmult_le_compat_l; lra.
Qed.

(** The mean tends to infinity as gamma tends to 0. *)
Lemma mean_large mean s : 0 <= s -> 1 <= mean -> exists g0, 0 < g0 < 1 /\
  forall g m, 0 < g <= g0 -> tnb_mean g s = Ok m -> mean <= m.
Proof.
  intros Hs Hm. exists (/ (16 * mean) * / (16 * mean)).
  assert (I : 0 < / (16 * mean) <= / 16).
  { split; [apply Rinv_0_lt_compat; lra | apply Rinv_le_contravar; lra]. }
  split; [nra|]. intros g m [G0 G1] H.
  assert (G2 : 0 < g < 1/2) by nra.
  destruct (tnb_rel g s m Hs ltac:(lra) H) as (d & E & D & M0).
  assert (D2 : d <= 1) by (pose proof tiny as [T0 T1]; pose proof (Rle_abs d); unfold Rdiv in *; lra).
  assert (L : tnb_true_mean g s <= 2 * m) by (rewrite E; nra).
  pose proof (true_mean_low g s Hs ltac:(lra)) as L2.
  (* - ln g <= 2 / sqrt g *)
  set (r := sqrt g). assert (R0 : 0 < r) by (apply sqrt_lt_R0; lra).
  assert (Rg : r * r = g) by (apply sqrt_sqrt; lra).
  assert (Rm : r <= / (16 * mean)) by (unfold r; rewrite <- (sqrt_square (/ (16 * mean))) by lra; apply sqrt_le_1_alt; assumption).
  assert (Ln : - ln g <= 2 * / r).
  { rewrite <- Rg, ln_mult by assumption. pose proof (exp_ineq1_le (- ln r)) as X.
    rewrite exp_Ropp, exp_ln in X by assumption. lra. }
  pose proof (ln_neg g ltac:(lra)) as Lg.
  assert (L3 : / (4 * r) <= (1 - g) / (g * - ln g)).
  { apply (Rmult_le_reg_r (g * - ln g * (4 * r))); [apply Rmult_lt_0_compat; [nra | lra]|].
    replace (/ (4 * r) * (g * - ln g * (4 * r))) with (g * - ln g) by (field; lra).
    replace ((1 - g) / (g * - ln g) * (g * - ln g * (4 * r))) with ((1 - g) * (4 * r)) by (field; lra).
    apply Rle_trans with (g * (2 * / r)); [apply Rmult_le_compat_l; lra|].
    replace (g * (2 * / r)) with (2 * r) by (rewrite <- Rg; field; lra). nra. }
  assert (4 * mean <= / (4 * r)).
  { apply (Rmult_le_reg_r (4 * r)); [lra|]. rewrite Rinv_l by lra.
    apply Rle_trans with (4 * mean * (4 * / (16 * mean))); [apply Rmult_le_compat_l; lra|]. apply Req_le. field. lra. }
  lra.
Qed.

(** ** The search *)
Lemma gamma_loop_sound fuel : forall shape mean tol gmin gmax g, 0 <= shape ->
  0 <= tol -> 0 <= gmin -> gmin <= gmax <= 1 -> (gmin = 0 -> 0 < gmax) ->
  (gmin = 0 \/ exists m, tnb_mean gmin shape = Ok m /\ mean <= m) ->
  gamma_loop fuel shape mean tol gmin gmax = Ok g ->
  0 < g <= 1 /\ (exists m, tnb_mean g shape = Ok m /\ mean <= m) /\
  exists g', g <= g' <= g * (1 + tol) /\ (g' = gmax \/ exists m, 0 < g' < 1 /\ tnb_mean g' shape = Ok m /\ m < mean).
Proof.
  induction fuel as [|fuel IH]; intros shape mean tol gmin gmax g Hs Ht H0 H1 Hz Inv H; [discriminate|].
  cbn [gamma_loop] in H. destruct (Rltb_spec (gmin * (1 + tol)) gmax) as [L|L].
  - assert (Lt : gmin < gmax) by nra.
    destruct (tnb_total ((gmin + gmax) / 2) shape Hs ltac:(lra)) as (m & Em). rewrite Em in H. cbn [bind] in H.
    destruct (Rltb_spec m mean) as [M|M].
    + destruct (IH shape mean tol gmin ((gmin + gmax) / 2) g Hs Ht H0 ltac:(lra) ltac:(lra) Inv H) as (A & B & g' & G & [->|C]).
      * split; [assumption|]. split; [assumption|]. exists ((gmin + gmax) / 2). split; [assumption|]. right.
        exists m. split; [lra|]. split; assumption.
      * split; [assumption|]. split; [assumption|]. exists g'. split; [assumption | right; assumption].
    + apply (IH shape mean tol ((gmin + gmax) / 2) gmax g Hs Ht ltac:(lra) ltac:(lra) ltac:(intros; lra) (or_intror (ex_intro _ m (conj Em (Rnot_lt_le _ _ M)))) H).
  - injection H as <-. assert (P : 0 < gmin) by (destruct H0 as [|<-]; [assumption | rewrite Rmult_0_l in L; specialize (Hz eq_refl); lra]).
    split; [lra|]. split; [destruct Inv as [Z|Inv]; [lra | assumption]|].
    exists gmax. split; [lra | left; reflexivity].
Qed.

Lemma gamma_sound fuel shape mean tol g : 0 <= tol -> gamma_tnb fuel shape (Fin mean) tol = Ok g ->
  0 < g <= 1 /\ (exists m, tnb_mean g shape = Ok m /\ mean <= m) /\
  exists g', g <= g' <= g * (1 + tol) /\ (g' = 1 \/ g' < 1 /\ tnb_true_mean g' shape <= mean * (1 + 5 / 10 ^ 90)).
Proof.
  intros Ht H. unfold gamma_tnb in H. destruct (Rltb_spec shape 0) as [|Hs]; [discriminate|]. assert (Hs' : 0 <= shape) by lra. clear Hs. rename Hs' into Hs.
  cbn [xltb] in H. destruct (Rltb_spec mean 1) as [|Hm]; [discriminate|].
  pose proof tiny as [T0 T1].
  assert (T : 0 < / 10 ^ 90 <= 1/1000) by (unfold Rdiv in T0, T1; lra).
  destruct (Reqb_spec shape 1) as [->|N].
  - injection H as <-.
    assert (G : 0 < 1 / mean <= 1).
    { split; [apply Rdiv_lt_0_compat; lra|]. apply (Rmult_le_reg_r mean); [lra|]. replace (1 / mean * mean) with 1 by (field; lra). lra. }
    split; [assumption|]. split.
    + destruct (tnb_total (1 / mean) 1 ltac:(lra) G) as (m & E). exists m. split; [assumption|].
      unfold tnb_mean in E. rewrite Rltb_false, Rleb_false, Rltb_false, Reqb_refl in E by lra. cbn [orb] in E. injection E as <-.
      apply Req_le. field. lra.
    + exists (1 / mean). split; [nra|]. destruct (Req_dec (1 / mean) 1) as [E|E]; [left; assumption | right].
      split; [lra|]. unfold tnb_true_mean. rewrite Reqb_false, Rpower_1 by lra.
      replace (1 * (1 / (1 / mean) - 1) / (1 - 1 / mean)) with mean; [unfold Rdiv; nra|].
      field. split; [lra|]. intros Z. apply E. field_simplify_eq; lra.
  - assert (B : 0 < Rmin 1 (2 * (shape + 1) / mean)) by (apply Rmin_glb_lt; [lra | apply Rdiv_lt_0_compat; lra]).
    pose proof (Rmin_l 1 (2 * (shape + 1) / mean)) as ML.
    destruct (gamma_loop_sound _ _ _ _ _ _ _ Hs Ht (Rle_refl 0) (conj (Rlt_le _ _ B) ML) (fun _ => B) (or_introl eq_refl) H)
      as (A & M & g' & G & C).
    split; [assumption|]. split; [assumption|]. exists g'. split; [assumption|].
    destruct C as [C|(m & C1 & C2 & C3)].
    + unfold Rmin in C. destruct (Rle_dec 1 (2 * (shape + 1) / mean)) as [|D]; [left; assumption|]. right. split; [lra|].
      assert (P : 0 < 2 * (shape + 1) / mean) by (apply Rdiv_lt_0_compat; lra).
      rewrite C. eapply Rle_trans; [apply true_mean_le; lra|].
      replace ((shape + 1) / (2 * (shape + 1) / mean)) with (mean / 2) by (field; lra). unfold Rdiv. nra.
    + right. split; [lra|]. destruct (tnb_rel g' shape m ltac:(lra) C1 C2) as (d & E & D & M0). rewrite E.
      pose proof (Rle_abs d). unfold Rdiv in *. nra.
Qed.

Lemma loop_stop n : forall shape mean tol gmin gmax, 0 <= shape -> 0 < tol -> 0 < gmin -> gmin <= gmax <= 1 ->
  gmax - gmin <= 2 ^ n * (tol * gmin) -> exists fuel g, gamma_loop fuel shape mean tol gmin gmax = Ok g.
Proof.
  induction n as [|n IH]; intros shape mean tol gmin gmax Hs Ht H0 H1 Hg.
  - exists 1%nat, gmin. cbn [gamma_loop]. rewrite Rltb_false; [reflexivity|]. cbn in Hg. nra.
  - destruct (Rltb (gmin * (1 + tol)) gmax) eqn:L; [|exists 1%nat, gmin; cbn [gamma_loop]; rewrite L; reflexivity].
    destruct (tnb_total ((gmin + gmax) / 2) shape Hs ltac:(lra)) as (m & Em).
    cbn [pow] in Hg. assert (P : 0 < 2 ^ n) by (apply pow_lt; lra).
    destruct (Rltb m mean) eqn:M.
    + destruct (IH shape mean tol gmin ((gmin + gmax) / 2)) as (f & g & E); try assumption; try lra.
      exists (S f), g. cbn [gamma_loop]. rewrite L, Em. cbn [bind]. rewrite M. exact E.
    + destruct (IH shape mean tol ((gmin + gmax) / 2) gmax) as (f & g & E); try assumption; try lra.
      * assert (2 ^ n * (tol * gmin) <= 2 ^ n * (tol * ((gmin + gmax) / 2))); [|lra].
        apply Rmult_le_compat_l; [lra|]. apply Rmult_le_compat_l; lra.
      * exists (S f), g. cbn [gamma_loop]. rewrite L, Em. cbn [bind]. rewrite M. exact E.
Qed.
Lemma pow2_big x : exists n, x <= 2 ^ n.
Proof.
  destruct (Pow_x_infinity 2 ltac:(rewrite Rabs_pos_eq; lra) x) as (n & H). exists n. specialize (H n (le_n n)).
  rewrite Rabs_pos_eq in H by (apply pow_le; lra). lra.
Qed.
Lemma loop_stop' shape mean tol gmin gmax : 0 <= shape -> 0 < tol -> 0 < gmin -> gmin <= gmax <= 1 ->
  exists fuel g, gamma_loop fuel shape mean tol gmin gmax = Ok g.
Proof.
  intros Hs Ht H0 H1. destruct (pow2_big (1 / (tol * gmin))) as (n & Hn).
  apply (loop_stop n); try assumption.
  assert (P : 0 < tol * gmin) by (apply Rmult_lt_0_compat; lra).
  apply (Rmult_le_compat_r (tol * gmin)) in Hn; [|lra]. replace (1 / (tol * gmin) * (tol * gmin)) with 1 in Hn by (field; lra). lra.
Qed.
Lemma loop_start n : forall shape mean tol g0 gmax, 0 <= shape -> 0 < tol -> 0 < gmax <= 1 -> 0 < g0 ->
  (forall g m, 0 < g <= g0 -> tnb_mean g shape = Ok m -> mean <= m) ->
  gmax <= 2 ^ n * g0 -> exists fuel g, gamma_loop fuel shape mean tol 0 gmax = Ok g.
Proof.
  induction n as [|n IH]; intros shape mean tol g0 gmax Hs Ht H1 H0 Hg B.
  - destruct (tnb_total ((0 + gmax) / 2) shape Hs ltac:(lra)) as (m & Em). cbn in B.
    assert (Hm : mean <= m) by (apply (Hg ((0 + gmax) / 2)); [lra | assumption]).
    destruct (loop_stop' shape mean tol ((0 + gmax) / 2) gmax) as (f & g & E); try assumption; try lra.
    exists (S f), g. cbn [gamma_loop]. rewrite Rltb_true by lra. rewrite Em. cbn [bind]. rewrite Rltb_false by lra. exact E.
  - destruct (tnb_total ((0 + gmax) / 2) shape Hs ltac:(lra)) as (m & Em). cbn [pow] in B.
    destruct (Rltb m mean) eqn:M.
    + destruct (IH shape mean tol g0 ((0 + gmax) / 2)) as (f & g & E); try assumption; try lra.
      exists (S f), g. cbn [gamma_loop]. rewrite Rltb_true by lra. rewrite Em. cbn [bind]. rewrite M. exact E.
    + destruct (loop_stop' shape mean tol ((0 + gmax) / 2) gmax) as (f & g & E); try assumption; try lra.
      exists (S f), g. cbn [gamma_loop]. rewrite Rltb_true by lra. rewrite Em. cbn [bind]. rewrite M. exact E.
Qed.

Lemma gamma_terminates shape mean tol : 0 <= shape -> 1 <= mean -> 0 < tol ->
  exists fuel g, gamma_tnb fuel shape (Fin mean) tol = Ok g.
Proof.
  intros Hs Hm Ht. unfold gamma_tnb. rewrite Rltb_false by lra. cbn [xltb]. rewrite Rltb_false by lra.
  destruct (Reqb shape 1); [exists 0%nat; eexists; reflexivity|].
  destruct (mean_large mean shape Hs Hm) as (g0 & G0 & G).
  destruct (pow2_big (/ g0)) as (n & Hn).
  assert (B : 0 < Rmin 1 (2 * (shape + 1) / mean)) by (apply Rmin_glb_lt; [lra | apply Rdiv_lt_0_compat; lra]).
  apply (loop_start n shape mean tol g0); try assumption; try lra.
  - split; [assumption | apply Rmin_l].
  - eapply Rle_trans; [apply Rmin_l|]. apply (Rmult_le_compat_r g0) in Hn; [|lra]. rewrite Rinv_l in Hn by lra. exact Hn.
Qed.
