(** Renyi divergence of single noisy queries at all orders. *)
From Coq Require Import FunctionalExtensionality.
From Verif Require Import Base XReal Exn TypesEvent TypesRelation SpecEvent SpecDP SpecMake SpecMech SpecRenyi SpecRdp SpecNoiseAcc SpecAccPld SpecAccountant SpecRdpEvent.
From Verif Require Import ModelRdp ProofDP ProofRenyi ProofPeak ProofShape ProofShapeGauss ProofTaylor ProofCharge ProofObserve ProofGaussRdp ProofLapRdp.

(** Order 1 from the orders above. *)
Lemma kl_le_renyi E a : valid E -> absolutely_continuous E -> 1 < a -> kl E <= renyi E a.
Proof.
  intros V AC Ha. pose proof (moment_pos E V a) as HM. unfold renyi. rewrite Reqb_false by lra. set (M := renyi_moment E a) in *.
  apply (Rmult_le_reg_r (a - 1)); [lra|]. unfold Rdiv. rewrite (Rmult_assoc (ln M)), Rinv_l, Rmult_1_r by lra.
  assert (S1 : rsum (prP E) (outs E) = 1) by apply V.
  apply Rle_trans with (rsum (fun o => (moment_term a (prP E o) (prQ E o)) * / M + prP E o * (ln M - 1)) (outs E)).
  - unfold kl. rewrite Rmult_comm, <- rsum_scal. apply rsum_le. intros o Ho. unfold moment_term.
    destruct V as (V & _). destruct (V o Ho) as [P0 Q0].
    destruct (Reqb_spec (prP E o) 0) as [->|N]; [lra|].
    assert (0 < prP E o) by lra. assert (Q1 : 0 < prQ E o) by (destruct Q0 as [|Z]; [assumption | exfalso; apply N, AC; auto]).
    set (x := Rpower (prP E o / prQ E o) (a - 1)). assert (Hx : 0 < x) by apply Rpower_pos.
    replace ((a - 1) * (prP E o * ln (prP E o / prQ E o))) with (prP E o * ln x) by (unfold x, Rpower; rewrite ln_exp; ring).
    replace (prP E o * x * / M + prP E o * (ln M - 1)) with (prP E o * (x * / M - 1 + ln M)) by ring.
    apply Rmult_le_compat_l; [lra|].
    assert (K : ln (x * / M) <= x * / M - 1).
    { assert (G : 0 < x * / M) by (apply Rmult_lt_0_compat; [assumption | apply Rinv_0_lt_compat, HM]).
      pose proof (exp_ineq1_le (ln (x * / M))) as X. rewrite exp_ln in X by assumption. lra. }
    rewrite ln_mult, ln_Rinv in K by (try apply Rinv_0_lt_compat; assumption). lra.
  - rewrite rsum_plus. rewrite (rsum_ext _ (fun o => / M * moment_term a (prP E o) (prQ E o))) by (intros; ring).
    rewrite (rsum_ext (fun o => prP E o * _) (fun o => (ln M - 1) * prP E o)) by (intros; ring).
    rewrite !rsum_scal, S1. change (rsum (fun o => moment_term a (prP E o) (prQ E o)) (outs E)) with M. rewrite Rinv_l by lra. lra.
Qed.
Lemma le_scaled x y : (forall t, 0 < t -> x <= (1 + t) * y) -> 0 <= y -> x <= y.
Proof.
  intros H Hy. destruct (Rle_lt_dec x y) as [|L]; [assumption|exfalso]. destruct Hy as [Hy|<-]; [|specialize (H 1 ltac:(lra)); lra].
  assert (T : 0 < (x - y) / (2 * y)) by (apply Rdiv_lt_0_compat; lra). specialize (H _ T).
  replace ((1 + (x - y) / (2 * y)) * y) with (y + (x - y) / 2) in H by (field; lra). lra.
Qed.
Lemma le_scaled_neg x n : (forall t, 0 < t -> x * (1 + t) <= - n) -> x <= - n.
Proof.
  intros H. destruct (Rle_lt_dec x (- n)) as [|L]; [assumption|exfalso]. destruct (Rle_lt_dec 0 x) as [P|N].
  - specialize (H 1 ltac:(lra)). lra.
  - assert (T : 0 < (x + n) / (- 2 * x)) by (apply Rdiv_lt_0_compat; lra). specialize (H _ T).
    replace (x * (1 + (x + n) / (- 2 * x))) with (x - (x + n) / 2) in H by (field; lra). lra.
Qed.

(** No leak *)
Lemma no_leak_bounded E a : no_leak E -> order_ok a -> rdp_bounded E a (Fin 0).
Proof.
  intros (V & S) Ha. assert (G : forall E, valid E -> (forall o, In o (outs E) -> prP E o = prQ E o) -> renyi_bounded E a (Fin 0)).
  { clear E V S. intros E V S. split; [intros o Ho Z; rewrite S by assumption; exact Z|]. destruct a as [a| | |]; try contradiction.
    - split; [exact Ha|]. assert (T : forall o, In o (outs E) -> prP E o <> 0 -> prP E o / prQ E o = 1) by (intros o Ho N; rewrite <- S by assumption; field; assumption).
      unfold renyi. destruct (Reqb_spec a 1) as [->|N1].
      + unfold kl. rewrite (rsum_ext _ (fun _ => 0 * 0)); [rewrite rsum_scal; lra|]. intros o Ho. destruct (Reqb_spec (prP E o) 0); [lra|]. rewrite T, ln_1 by assumption. lra.
      + unfold renyi_moment. rewrite (rsum_ext _ (prP E)).
        * destruct V as (_ & -> & _). rewrite ln_1. unfold Rdiv. lra.
        * intros o Ho. destruct (Reqb_spec (prP E o) 0); [lra|]. rewrite T by assumption. unfold Rpower. rewrite ln_1, Rmult_0_r, exp_0. ring.
    - intros o Ho. rewrite exp_0, S by assumption. lra. }
  split; [apply G; assumption|]. apply G; [apply valid_swap, V|]. intros o Ho. symmetry. apply S, Ho.
Qed.

(** The form of a scaled query. *)
Lemma scaled_form F E : is_cdf F -> scaled_query F 1 E -> exists s v d cuts, 0 < s /\ Rabs d <= s /\ StronglySorted Rlt cuts /\
  E = observe (fun x => F ((x - (v + d)) / s)) (fun x => F ((x - v) / s)) cuts /\
  swap E = observe (fun x => F ((x - v) / s)) (fun x => F ((x - (v + d)) / s)) cuts /\ valid E.
Proof.
  intros HF (s & Hs & v & d & cuts & _ & _ & Hd & HS & ->). exists s, v, d, cuts. split; [assumption|]. split; [assumption|]. split; [assumption|].
  assert (X : observe (sampled 1 (add_noise (fun x => F (x / s)) v) (add_noise (fun x => F (x / s)) (v + d))) (add_noise (fun x => F (x / s)) v) cuts
    = observe (fun x => F ((x - (v + d)) / s)) (fun x => F ((x - v) / s)) cuts).
  { f_equal. apply functional_extensionality. intros x. unfold sampled, add_noise. ring. }
  rewrite X. split; [reflexivity|]. split; [reflexivity|]. apply observe_valid; [apply scaled_cdf; assumption .. | assumption].
Qed.

Section Gaussian.
  Context (Phi : R -> R) (HPhi : normal_cdf Phi) (sigma : R) (Hs : 0 < sigma).
  Lemma normal_law_cdf : is_cdf (normal_law Phi sigma).
  Proof.
    destruct HPhi as (HC & _). pose proof (scaled_cdf Phi sigma 0 Hs HC) as H. unfold normal_law.
    replace (fun x => Phi (x / sigma)) with (fun y => Phi ((y - 0) / sigma)); [exact H|]. apply functional_extensionality. intros x. rewrite Rminus_0_r. reflexivity.
  Qed.
  Lemma gauss_form E : gaussian_query Phi sigma E -> exists w v d cuts, 0 < w /\ d / w * (d / w) <= / (sigma * sigma) /\ StronglySorted Rlt cuts /\
    E = observe (fun x => Phi ((x - (v + d)) / w)) (fun x => Phi ((x - v) / w)) cuts /\
    swap E = observe (fun x => Phi ((x - v) / w)) (fun x => Phi ((x - (v + d)) / w)) cuts /\ valid E.
  Proof.
    intros H. destruct (scaled_form _ _ normal_law_cdf H) as (s & v & d & cuts & Hs0 & Hd & HS & E1 & E2 & V).
    assert (F : forall u, (fun x => normal_law Phi sigma ((x - u) / s)) = (fun x => Phi ((x - u) / (s * sigma)))).
    { intros u. apply functional_extensionality. intros x. unfold normal_law. f_equal. field. lra. }
    rewrite !F in *. exists (s * sigma), v, d, cuts. split; [apply Rmult_lt_0_compat; assumption|]. split; [|auto].
    replace (d / (s * sigma) * (d / (s * sigma))) with (d * d / (s * s) * / (sigma * sigma)) by (field; lra).
    rewrite <- (Rmult_1_l (/ (sigma * sigma))) at 2. apply Rmult_le_compat_r; [left; apply Rinv_0_lt_compat, Rmult_lt_0_compat; assumption|].
    assert (d * d <= s * s) by (pose proof (Rsqr_le_abs_1 d s ltac:(rewrite (Rabs_pos_eq s) by lra; exact Hd)); assumption).
    apply (Rmult_le_reg_r (s * s)); [nra|]. unfold Rdiv. rewrite Rmult_assoc, Rinv_l by nra. lra.
  Qed.
  Lemma gauss_moment E a : gaussian_query Phi sigma E -> 1 < a ->
    valid E /\ (absolutely_continuous E /\ renyi_moment E a <= exp ((a - 1) * (a / (2 * (sigma * sigma))))) /\
    (absolutely_continuous (swap E) /\ renyi_moment (swap E) a <= exp ((a - 1) * (a / (2 * (sigma * sigma))))).
  Proof.
    intros H Ha. destruct (gauss_form E H) as (w & v & d & cuts & Hw & Hd & HS & E1 & E2 & V). split; [assumption|].
    assert (K : exp (a * (a - 1) * (d / w * (d / w)) / 2) <= exp ((a - 1) * (a / (2 * (sigma * sigma))))).
    { apply exp_le. replace ((a - 1) * (a / (2 * (sigma * sigma)))) with (a * (a - 1) * / (sigma * sigma) / 2) by (field; lra).
      apply Rmult_le_compat_r; [lra|]. apply Rmult_le_compat_l; [nra | assumption]. }
    split.
    - rewrite E1. destruct (gauss_moment_cells Phi HPhi v d w a cuts Hw Ha HS) as [AC M]. split; [exact AC|]. eapply Rle_trans; [exact M | exact K].
    - rewrite E2. destruct (gauss_moment_cells Phi HPhi (v + d) (- d) w a cuts Hw Ha HS) as [AC M].
      replace (v + d + - d) with v in * by ring. split; [exact AC|]. eapply Rle_trans; [exact M|].
      replace (- d / w * (- d / w)) with (d / w * (d / w)) by (field; lra). exact K.
  Qed.
  Lemma gauss_bounded E a : gaussian_query Phi sigma E -> 1 <= a -> valid E /\ rdp_bounded E (Fin a) (Fin (a / (2 * (sigma * sigma)))).
  Proof.
    intros H Ha. assert (V : valid E) by (destruct (gauss_form E H) as (w & v & d & cuts & X); apply X). split; [assumption|].
    assert (G : forall E, valid E -> (forall a, 1 < a -> absolutely_continuous E /\ renyi_moment E a <= exp ((a - 1) * (a / (2 * (sigma * sigma))))) ->
      renyi_bounded E (Fin a) (Fin (a / (2 * (sigma * sigma))))).
    { clear E H V. intros E V H. assert (AC : absolutely_continuous E) by (apply (H 2); lra).
      assert (R : forall b, 1 < b -> renyi E b <= b / (2 * (sigma * sigma))) by (intros b Hb; apply renyi_moment_le; [assumption .. | apply H, Hb]).
      split; [exact AC|]. split; [exact Ha|]. destruct (Rle_lt_or_eq_dec 1 a Ha) as [L|<-]; [apply R, L|].
      unfold renyi. rewrite Reqb_true by reflexivity. assert (0 < 1 / (2 * (sigma * sigma))) by (apply Rdiv_lt_0_compat; nra).
      apply le_scaled; [|lra]. intros t Ht. eapply Rle_trans; [apply (kl_le_renyi E (1 + t) V AC); lra|].
      eapply Rle_trans; [apply R; lra|]. right. field. lra. }
    split; apply G; try assumption; try (apply valid_swap; assumption); intros b Hb; apply (gauss_moment E b H Hb).
  Qed.
End Gaussian.

Section Laplace.
  Context (b : R) (Hb : 0 < b).
  Lemma laplace_form E : scaled_query (laplace_law b) 1 E -> valid E /\ forall a, 1 < a ->
    (absolutely_continuous E /\ renyi_moment E a <= laplace_moment a (1 / b)) /\
    (absolutely_continuous (swap E) /\ renyi_moment (swap E) a <= laplace_moment a (1 / b)).
  Proof.
    intros H. destruct (scaled_form _ _ (laplace_is_cdf b Hb) H) as (s & v & d & cuts & Hs0 & Hd & HS & E1 & E2 & V). split; [assumption|]. intros a Ha.
    assert (F : forall u, (fun x => laplace_law b ((x - u) / s)) = (fun x => laplace_law 1 ((x - u) / (s * b)))).
    { intros u. apply functional_extensionality. intros x. rewrite laplace_scale by assumption. f_equal. field. lra. }
    rewrite !F in *. assert (Hw : 0 < s * b) by (apply Rmult_lt_0_compat; assumption).
    assert (K : forall d', Rabs d' <= s -> laplace_moment a (Rabs d' / (s * b)) <= laplace_moment a (1 / b)).
    { intros d' Hd'. apply laplace_moment_mono; [assumption | apply Rmult_le_pos; [apply Rabs_pos | left; apply Rinv_0_lt_compat, Hw]|].
      replace (1 / b) with (s / (s * b)) by (field; lra). apply Rmult_le_compat_r; [left; apply Rinv_0_lt_compat, Hw | assumption]. }
    split.
    - rewrite E1. destruct (laplace_moment_cells v d (s * b) a cuts Hw Ha HS) as [AC M]. split; [exact AC|]. eapply Rle_trans; [exact M | apply K, Hd].
    - rewrite E2. destruct (laplace_moment_cells (v + d) (- d) (s * b) a cuts Hw Ha HS) as [AC M]. replace (v + d + - d) with v in * by ring.
      split; [exact AC|]. eapply Rle_trans; [exact M | apply K]. rewrite Rabs_Ropp. exact Hd.
  Qed.
  Lemma laplace_value eps a : 0 <= eps -> 1 < a ->
    ln (laplace_moment a eps) / (a - 1) = eps + ln (1 - (a - 1) * (1 - exp (eps * (1 - 2 * a))) / (2 * a - 1)) / (a - 1) /\
    0 < 1 - (a - 1) * (1 - exp (eps * (1 - 2 * a))) / (2 * a - 1) <= 1.
  Proof.
    intros He Ha. destruct (laplace_core eps a He Ha) as [[V0 V1] _]. split; [|lra].
    set (u := 1 - (a - 1) * (1 - exp (eps * (1 - 2 * a))) / (2 * a - 1)) in *.
    assert (X : laplace_moment a eps = exp ((a - 1) * eps) * u).
    { unfold laplace_moment, u. replace (- a * eps) with ((a - 1) * eps + eps * (1 - 2 * a)) by ring. rewrite exp_plus. field. lra. }
    rewrite X, ln_mult, ln_exp by (try apply exp_pos; unfold u; lra). field. lra.
  Qed.
  Lemma laplace_series n eps a : 0 <= eps -> 1 < a ->
    eps + ln (1 - (a - 1) * (1 - exp (eps * (1 - 2 * a))) / (2 * a - 1)) / (a - 1) <=
    eps + (exp (eps * (1 - 2 * a)) - 1) / (2 * a - 1) * log_series n (- ((exp (eps * (1 - 2 * a)) - 1) / (2 * a - 1)) * (a - 1)).
  Proof.
    intros He Ha. destruct (laplace_value eps a He Ha) as [_ [U0 U1]].
    apply Rplus_le_compat_l. set (X := exp (eps * (1 - 2 * a))) in *. set (u := (a - 1) * (1 - X) / (2 * a - 1)) in *.
    pose proof (log_series_le n u ltac:(lra)) as S.
    replace (- ((X - 1) / (2 * a - 1)) * (a - 1)) with u by (unfold u; field; lra). set (t := log_series n u) in *.
    replace ((X - 1) / (2 * a - 1) * t) with (- (u * t) / (a - 1)) by (unfold u; field; lra).
    apply Rmult_le_compat_r; [left; apply Rinv_0_lt_compat; lra | lra].
  Qed.
  Lemma laplace_bounded E a r : scaled_query (laplace_law b) 1 E -> laplace_rdp (1 / b) a = Ok r -> valid E /\ rdp_bounded E a r.
  Proof.
    intros H L. destruct (laplace_form E H) as [V B]. split; [assumption|]. assert (He : 0 <= 1 / b) by (apply Rmult_le_pos; [lra | left; apply Rinv_0_lt_compat, Hb]).
    set (eps := 1 / b) in *.
    enough (G : forall E, valid E -> (forall a, 1 < a -> absolutely_continuous E /\ renyi_moment E a <= laplace_moment a eps) -> renyi_bounded E a r).
    { split; apply G; try assumption; try (apply valid_swap; assumption); intros c Hc; apply (B c Hc). }
    clear E H V B. intros E V B. unfold laplace_rdp in L. rewrite Rltb_false in L by assumption. destruct a as [a| | |]; try discriminate.
    assert (AC : absolutely_continuous E) by (apply (B 2); lra).
    assert (R : forall c, 1 < c -> renyi E c <= eps + ln (1 - (c - 1) * (1 - exp (eps * (1 - 2 * c))) / (2 * c - 1)) / (c - 1)).
    { intros c Hc. destruct (laplace_value eps c He Hc) as [<- _]. unfold renyi. rewrite Reqb_false by lra. apply Rmult_le_compat_r; [left; apply Rinv_0_lt_compat; lra|].
      apply ln_le_mono; [apply moment_pos, V | apply B, Hc]. }
    destruct (Rltb_spec a 1) as [|A1]; [discriminate|]. apply Rnot_lt_le in A1.
    destruct (Reqb_spec a 1) as [->|N1].
    - injection L as <-. split; [exact AC|]. split; [lra|]. unfold renyi. rewrite Reqb_true by reflexivity.
      assert (E1 : exp (- eps) <= 1) by (rewrite <- exp_0; apply exp_le; lra).
      enough (kl E - eps <= - (1 - exp (- eps))) by lra. apply le_scaled_neg. intros t Ht. set (c := 1 + t / 2). assert (Hc : 1 < c) by (unfold c; lra).
      pose proof (kl_le_renyi E c V AC Hc) as K1. specialize (R c Hc). destruct (laplace_value eps c He Hc) as [_ [U0 U1]].
      set (u := (c - 1) * (1 - exp (eps * (1 - 2 * c))) / (2 * c - 1)) in *.
      assert (Lu : ln (1 - u) <= - u) by (pose proof (exp_ineq1_le (ln (1 - u))) as X; rewrite exp_ln in X by lra; lra).
      assert (Eu : ln (1 - u) / (c - 1) <= - u / (c - 1)) by (apply Rmult_le_compat_r; [left; apply Rinv_0_lt_compat; lra | exact Lu]).
      replace (- u / (c - 1)) with (- (1 - exp (eps * (1 - 2 * c))) / (2 * c - 1)) in Eu by (unfold u; field; lra).
      assert (E2 : exp (eps * (1 - 2 * c)) <= exp (- eps)) by (apply exp_le; nra).
      assert (K2 : kl E - eps <= - (1 - exp (eps * (1 - 2 * c))) / (2 * c - 1)) by lra.
      apply (Rmult_le_compat_r (2 * c - 1)) in K2; [|lra]. unfold Rdiv in K2. rewrite Rmult_assoc, Rinv_l, Rmult_1_r in K2 by lra.
      replace (2 * c - 1) with (1 + t) in K2 at 1 by (unfold c; lra). lra.
    - assert (Ha : 1 < a) by lra. specialize (R a Ha). destruct (laplace_value eps a He Ha) as [_ [U0 U1]].
      destruct (Rltb a (11 / 10)); injection L as <-; (split; [exact AC|]); (split; [lra|]); (eapply Rle_trans; [exact R|]).
      + exact (laplace_series 99 eps a He Ha).
      + set (X := exp (eps * (1 - 2 * a))) in *. right. do 3 f_equal. field. lra.
  Qed.
End Laplace.
