(** The infinity mass of the privacy loss distributions constructed by connecting dots. *)
From Verif Require Import Base XReal Exn TypesAdjacency ModelPmf ModelPld ModelMake ModelMech SpecDP SpecPmf SpecPld SpecMech SpecClasses SpecConstruct
  ProofDP ProofPmf ProofQuery ProofPeak ProofNoise ProofShape ProofShapeGauss ProofAdditive ProofClasses ProofMechTop ProofConv
  ProofDots ProofDotsMech ProofTails ProofTailClasses ProofConstruct ProofConstructTotal ProofConstructEx ProofFindTotal.
Local Arguments Rltb : simpl never.
Local Arguments Rleb : simpl never.
Local Arguments Reqb : simpl never.

Lemma hs_lipschitz E e e' : valid E -> e <= e' -> hockey_stick E e <= hockey_stick E e' + (exp e' - exp e).
Proof.
  intros (V1 & _ & V3) H. pose proof (exp_le e e' H) as HE.
  replace (exp e' - exp e) with ((exp e' - exp e) * rsum (prQ E) (outs E)) by (rewrite V3; ring).
  unfold hockey_stick. rewrite <- rsum_scal, <- rsum_plus. apply rsum_le. intros a Ha. destruct (V1 a Ha) as [_ Q0].
  set (u := prP E a) in *. set (v := prQ E a) in *. assert (0 <= (exp e' - exp e) * v) by (apply Rmult_le_pos; lra).
  unfold pos. apply Rmax_lub; [pose proof (Rmax_l 0 (u - exp e' * v)); lra|]. pose proof (Rmax_r 0 (u - exp e' * v)). lra.
Qed.

(** beyond the loss at [x], the divergence is at most the mass below [x] *)
Lemma tail_strict m ok F f s q adj x lx l d : additive_noise m ok F f s q adj ->
  privacy_loss m (Fin x) = Ok (Fin lx) -> lx < l -> divergence_is (upper_law adj F q s) (lower_law adj F q s) l d -> d <= upper_law adj F q s x.
Proof.
  intros HA Hx Hl D. destruct (additive_instance _ _ _ _ _ _ _ HA) as [Hq Hs Ho Hf (pk & cdf & loss0 & inv0 & pt & L & disc & tail & bounds & E & HF & HL & HR & HD)].
  rewrite (divergence_unique _ _ _ _ _ D (delta_at_peak _ _ _ _ _ HF q Hq adj l)).
  destruct (law_cdf _ _ _ _ _ HF q Hq adj) as [U Lw]. rewrite E in Hx.
  pose proof (in_strict F s pk cdf loss0 inv0 pt L HF HL q Hq adj disc tail bounds x (Fin lx) l Hx) as K.
  cbn [xltb] in K. rewrite Rltb_true in K by assumption. specialize (K eq_refl).
  unfold delta_at. pose proof (at_end_01 _ (peak adj q s pk l) Lw) as B. pose proof (exp_pos l).
  assert (at_end (upper_law adj F q s) (peak adj q s pk l) <= upper_law adj F q s x).
  { destruct (peak adj q s pk l) as [a| | |]; cbn in K |- *; try discriminate.
    - apply U. destruct (Rltb_spec a x); [lra | discriminate].
    - apply U. }
  nra.
Qed.
Lemma tail_weak m ok F f s q adj x lx l d : additive_noise m ok F f s q adj ->
  privacy_loss m (Fin x) = Ok (Fin lx) -> lx <= l -> divergence_is (upper_law adj F q s) (lower_law adj F q s) l d -> d <= upper_law adj F q s x.
Proof.
  intros HA Hx Hl [_ (cuts & SC & <-)]. apply Rnot_lt_le. intros G.
  destruct (additive_laws _ _ _ _ _ _ _ HA) as [U L]. pose proof (observe_valid _ _ _ U L SC) as V.
  set (E := observe _ _ cuts) in *. set (g := hockey_stick E l - upper_law adj F q s x) in *. assert (G0 : 0 < g) by (unfold g; lra).
  set (l' := l + ln (1 + g / (2 * exp l))). pose proof (exp_pos l) as El. assert (P : 0 < g / (2 * exp l)) by (apply Rdiv_lt_0_compat; lra).
  assert (LL : l < l') by (unfold l'; assert (0 < ln (1 + g / (2 * exp l))) by (rewrite <- ln_1; apply ln_increasing; lra); lra).
  assert (EE : exp l' - exp l = g / 2) by (unfold l'; rewrite exp_plus, exp_ln by lra; field; lra).
  pose proof (hs_lipschitz E l l' V ltac:(lra)) as HL. rewrite EE in HL.
  destruct (divergence_exists _ _ _ _ _ _ _ l' HA) as [d D].
  pose proof (tail_strict _ _ _ _ _ _ _ _ lx l' d HA Hx ltac:(lra) D) as B. destruct D as [D _]. specialize (D cuts SC). fold E in D. unfold g in HL. lra.
Qed.

(** the infinity mass is at most the divergence at any grid point *)
Lemma dots_inf m ok F f s q adj disc p c b : 0 < disc -> additive_noise m ok F f s q adj -> (forall z, ~ near_limit adj q (IZR z * disc)) ->
  reaches m disc c -> dots_pmf m disc = Ok p ->
  (forall e d, c <= e -> divergence_is (upper_law adj F q s) (lower_law adj F q s) e d -> d <= b) -> proper p /\ infinity_mass p <= b.
Proof.
  intros Hd HA HN HR HP HB. destruct (dots_grid m disc p c Hd HR HP) as (eps & ds & z & HD & HC & Hz & Lz).
  destruct (deltas_total m ok F f s q adj HA disc HN) as (h & PC & HT). rewrite HT in HD. injection HD as <-.
  destruct (dots_curve disc Hd eps p h PC HC) as (PR & EX & _). split; [assumption|].
  pose proof (proj1 PR) as W. pose proof W as (_ & I0 & _).
  destruct (mech_delta _ _ _ _ _ _ _ HA (IZR z * disc) (HN z)) as (d & Ed & D).
  assert (EH : h (exp (IZR z * disc)) = d).
  { pose proof (deltas_at_in m disc [z] [h (exp (IZR z * disc))] z (h (exp (IZR z * disc))) (HT [z]) (or_introl eq_refl)) as K. rewrite Ed in K. injection K as ->. reflexivity. }
  assert (IM : infinity_mass p <= pmf_delta p (Fin (IZR z * disc))).
  { rewrite pmf_delta_psum by assumption. unfold ptest. assert (0 <= psum p (hgain (discretization p) (IZR z * disc))); [|lra].
    apply psum_nonneg; [assumption|]. intros k. unfold hgain. apply Rmax_l. }
  rewrite (EX z Hz), EH in IM. pose proof (HB _ _ Lz D). lra.
Qed.

Lemma laplace_reach b s q adj disc m : 0 < disc -> LaplacePrivacyLoss b s q adj = Ok m ->
  exists u, reaches m disc u /\ forall e d, u <= e -> divergence_is (upper_law adj (laplace_law b) q s) (lower_law adj (laplace_law b) q s) e d -> d <= 0.
Proof.
  intros Hd Em. pose proof (laplace_noise m b s q adj Em) as HA. pose proof Em as Em'. apply laplace_ok in Em'. destruct Em' as [(Hb & Hs & Hq) E].
  pose proof (laplace_loses b s Hb Hs) as HL. assert (C : 0 < s / b) by (apply Rdiv_lt_0_compat; assumption).
  set (u := match adj with REMOVE => ln (1 - q + q * exp (s / b)) | ADD => - ln (1 - q + q * exp (- (s / b))) end).
  set (l := match adj with REMOVE => ln (1 - q + q * exp (- (s / b))) | ADD => - ln (1 - q + q * exp (s / b)) end).
  assert (X1 : exp (- (s / b)) < 1 < exp (s / b)) by (rewrite <- exp_0; split; apply exp_increasing; lra).
  assert (XP : 0 < exp (- (s / b))) by apply exp_pos. assert (XQ : 0 < 1 - q + q * exp (- (s / b))) by nra. assert (XR : 0 < 1 - q + q * exp (s / b)) by nra.
  assert (LU : l <= u). { unfold l, u. destruct adj; [apply Ropp_le_contravar|]; apply ln_le_iff; try assumption; nra. }
  assert (BD : connect_dots_bounds m = Ok (EpsilonBounds (Fin u) (Fin l))).
  { rewrite E. cbn [additive connect_dots_bounds]. unfold laplace_bounds, u, l. destruct (Reqb_spec q 1) as [->|]; [|destruct adj; reflexivity].
    replace (1 - 1 + 1 * exp (s / b)) with (exp (s / b)) by ring. replace (1 - 1 + 1 * exp (- (s / b))) with (exp (- (s / b))) by ring.
    rewrite !ln_exp, !Ropp_involutive. destruct adj; reflexivity. }
  assert (HR : reaches m disc u) by (left; exists u, l; rewrite E at 1; repeat split; try assumption; lra).
  assert (LO : forall x, exists lx, privacy_loss m (Fin x) = Ok (Fin lx) /\ lx <= u).
  { intros x. rewrite E. cbn [additive privacy_loss]. rewrite (loss_ok _ _ _ _ _ HL q Hq adj x Logic.I). cbn [base_loss sub_loss sub_remove xneg].
    assert (T : forall y, - s <= Rabs y - Rabs (y + s) <= s).
    { intros y. pose proof (Rabs_triang_inv y (y + s)) as A1. pose proof (Rabs_triang_inv (y + s) y) as A2.
      replace (y - (y + s)) with (- s) in A1 by ring. replace (y + s - y) with s in A2 by ring. rewrite Rabs_Ropp in A1. rewrite (Rabs_right s) in A1, A2 by lra. lra. }
    unfold u. destruct adj; cbn [base_loss sub_loss sub_remove xneg]; eexists; (split; [reflexivity|]).
    - specialize (T (x - s)). apply Ropp_le_contravar. set (y := (Rabs (x - s) - Rabs (x - s + s)) / b).
      assert (Y : y <= s / b) by (unfold y; apply Rmult_le_compat_r; [left; apply Rinv_0_lt_compat; assumption | lra]).
      assert (exp (- (s / b)) <= exp (- y)) by (apply exp_le; lra). apply ln_le_iff; nra.
    - specialize (T x). set (y := (Rabs x - Rabs (x + s)) / b).
      assert (Y : y <= s / b) by (unfold y; apply Rmult_le_compat_r; [left; apply Rinv_0_lt_compat; assumption | lra]).
      assert (exp y <= exp (s / b)) by (apply exp_le; lra). pose proof (exp_pos y). apply ln_le_iff; nra. }
  exists u. split; [exact HR|]. intros e d He D. apply Rnot_lt_le. intros G. destruct (additive_laws _ _ _ _ _ _ _ HA) as [(_ & _ & Lo & _) _]. destruct (Lo d G) as [x Hx].
  destruct (LO x) as (lx & Elx & Hlx). pose proof (tail_weak _ _ _ _ _ _ _ _ lx e d HA Elx ltac:(lra) D). lra.
Qed.
Lemma laplace_inf b s q adj disc m p : 0 < disc -> (forall z, ~ near_limit adj q (IZR z * disc)) ->
  LaplacePrivacyLoss b s q adj = Ok m -> dots_pmf m disc = Ok p -> proper p /\ infinity_mass p = 0.
Proof.
  intros Hd HN Em HP. destruct (laplace_reach b s q adj disc m Hd Em) as (u & HR & HB).
  destruct (dots_inf m _ _ _ s q adj disc p u 0 Hd (laplace_noise m b s q adj Em) HN HR HP HB) as [PR I].
  split; [assumption|]. pose proof (proj1 PR) as (_ & I0 & _). lra.
Qed.

Lemma gaussian_reach Phi ppf sigma s lb q adj disc m : normal_cdf Phi -> quantile_of Phi ppf -> lb <= 0 -> 0 < disc ->
  GaussianPrivacyLoss Phi ppf sigma s true lb q adj = Ok m ->
  exists u, reaches m disc u /\ forall e d, u <= e -> divergence_is (upper_law adj (gaussian_law Phi sigma) q s) (lower_law adj (gaussian_law Phi sigma) q s) e d -> d <= 1/2 * exp lb.
Proof.
  intros HPh HQ Hlb Hd Em. pose proof (gaussian_noise m Phi ppf sigma s true lb q adj HPh Em) as HA. pose proof Em as Em'. apply gaussian_ok in Em'. destruct Em' as [(Hb & Hs & Hq & _) E].
  pose proof (gaussian_loses sigma s Hb Hs) as HL.
  assert (PR : 0 < 1/2 * exp lb < 1). { assert (exp lb <= 1) by (rewrite <- exp_0; apply exp_le; assumption). pose proof (exp_pos lb). lra. }
  assert (NEG : sigma * ppf (1/2 * exp lb) <= 0).
  { assert (ppf (1/2 * exp lb) <= 0) by (apply (quantile_neg Phi); [assumption | assumption |]; assert (exp lb <= 1) by (rewrite <- exp_0; apply exp_le; assumption); lra). nra. }
  set (l0 := sigma * ppf (1/2 * exp lb)) in *.
  set (lo := match adj with ADD => l0 | REMOVE => l0 - s end). set (hi := match adj with ADD => - l0 + s | REMOVE => - l0 end).
  assert (LH : lo <= hi) by (unfold lo, hi; destruct adj; lra).
  assert (TOT : forall x, exists a, privacy_loss m (Fin x) = Ok (Fin a)).
  { intros x. rewrite E. apply (fin_loss (gaussian_loss0 sigma s) _ _ _ _ q adj x HL Hq Logic.I). destruct adj; eexists; reflexivity. }
  destruct (TOT lo) as [u Eu]. destruct (TOT hi) as [l El].
  assert (BD : connect_dots_bounds m = Ok (EpsilonBounds (Fin u) (Fin l))).
  { rewrite E in Eu, El |- *. cbn [additive connect_dots_bounds privacy_loss] in Eu, El |- *. unfold gaussian_bounds, gaussian_tail, gaussian_privacy_loss. fold l0.
    unfold lo in Eu. unfold hi in El. destruct adj; rewrite El; cbn [bind lower_x_truncation upper_x_truncation]; rewrite Eu, ?El; reflexivity. }
  assert (LU : l <= u). { apply xleb_fin. apply (mech_mono _ _ _ _ _ _ _ HA lo hi _ _ Eu El LH). }
  assert (HR : reaches m disc u) by (left; exists u, l; rewrite E at 1; repeat split; try assumption; lra).
  exists u. split; [exact HR|]. intros e d He D.
  pose proof (tail_weak _ _ _ _ _ _ _ _ _ e d HA Eu He D) as B. eapply Rle_trans; [exact B|].
  assert (EL : Phi (l0 / sigma) = 1/2 * exp lb) by (unfold l0; replace (sigma * ppf (1/2 * exp lb) / sigma) with (ppf (1/2 * exp lb)) by (field; lra); apply HQ, PR).
  unfold lo. destruct adj; cbn [upper_law].
  - rewrite EL. lra.
  - unfold remove_upper, sampled. replace (l0 - s + s) with l0 by ring. rewrite EL.
    assert (Phi ((l0 - s) / sigma) <= Phi (l0 / sigma)).
    { apply HPh. apply Rmult_le_compat_r; [left; apply Rinv_0_lt_compat; assumption | lra]. }
    rewrite EL in H. nra.
Qed.
Lemma gaussian_inf Phi ppf sigma s lb q adj disc m p : normal_cdf Phi -> quantile_of Phi ppf -> lb <= 0 -> 0 < disc -> (forall z, ~ near_limit adj q (IZR z * disc)) ->
  GaussianPrivacyLoss Phi ppf sigma s true lb q adj = Ok m -> dots_pmf m disc = Ok p -> proper p /\ infinity_mass p <= 1/2 * exp lb.
Proof.
  intros HPh HQ Hlb Hd HN Em HP. destruct (gaussian_reach Phi ppf sigma s lb q adj disc m HPh HQ Hlb Hd Em) as (u & HR & HB).
  apply (dots_inf m _ _ _ s q adj disc p u _ Hd (gaussian_noise m Phi ppf sigma s true lb q adj HPh Em) HN HR HP HB).
Qed.
