(** The pessimistic privacy loss distribution of a mixture of Gaussians, by connecting the dots. *)
From Coq Require Import Lra.
From Verif Require Import Base XReal Exn PyDict TypesAdjacency ModelPmf ModelPld ModelMake ModelMech ModelSearch ModelMixture SpecDP SpecPmf SpecPld SpecMech SpecMake SpecClasses SpecConstruct SpecNoiseAcc SpecMixture
  ProofDP ProofDict ProofPmf ProofPld ProofDots ProofPeak ProofTailClasses ProofMix ProofMixLaw ProofMixInv ProofMixDelta ProofMixDom.
Local Arguments Rltb : simpl never.
Local Arguments Rleb : simpl never.
Local Arguments Reqb : simpl never.

Lemma exp_at_most_1 x : x <= 0 -> exp x <= 1.
Proof. intros H. rewrite <- exp_0. apply exp_le, H. Qed.
Lemma exp_below_1 x : x < 0 -> exp x < 1.
Proof. intros H. rewrite <- exp_0. apply exp_increasing, H. Qed.

(** ** Distances from a curve *)
Lemma short_curve h err t1 : privacy_curve h -> 0 <= err -> 0 < t1 -> privacy_curve (fun t => Rmax (Rmax 0 (h t - err)) (1 - t / t1)).
Proof.
  intros (h0 & h1 & hm & hc) He Ht. assert (P1 : 0 < / t1) by (apply Rinv_0_lt_compat, Ht). split; [|split; [|split]].
  - rewrite h0. unfold Rdiv. rewrite Rmult_0_l, Rminus_0_r. apply Rmax_right. apply Rmax_lub; lra.
  - intros t H. destruct (h1 t H). split.
    + eapply Rle_trans; [|apply Rmax_l]. apply Rmax_l.
    + apply Rmax_lub; [apply Rmax_lub; lra|]. assert (0 <= t / t1) by (apply Rle_mult_inv_pos; assumption). lra.
  - intros a b H. pose proof (hm a b H). assert (a / t1 <= b / t1) by (apply Rmult_le_compat_r; lra). pose proof (Rmax_l 0 (h a - err)). pose proof (Rmax_r 0 (h a - err)). pose proof (Rmax_l (Rmax 0 (h a - err)) (1 - a / t1)). pose proof (Rmax_r (Rmax 0 (h a - err)) (1 - a / t1)).
    apply Rmax_lub; [apply Rmax_lub|]; lra.
  - intros w a b Hw Ha Hb. pose proof (hc w a b Hw Ha Hb) as C. set (fa := Rmax (Rmax 0 (h a - err)) (1 - a / t1)). set (fb := Rmax (Rmax 0 (h b - err)) (1 - b / t1)).
    assert (A : 0 <= fa /\ h a - err <= fa /\ 1 - a / t1 <= fa) by (unfold fa; repeat split; [eapply Rle_trans; [|apply Rmax_l]; apply Rmax_l | eapply Rle_trans; [|apply Rmax_l]; apply Rmax_r | apply Rmax_r]).
    assert (B : 0 <= fb /\ h b - err <= fb /\ 1 - b / t1 <= fb) by (unfold fb; repeat split; [eapply Rle_trans; [|apply Rmax_l]; apply Rmax_l | eapply Rle_trans; [|apply Rmax_l]; apply Rmax_r | apply Rmax_r]).
    clearbody fa fb. apply Rmax_lub; [apply Rmax_lub|].
    + destruct Hw. nra.
    + assert (w * (h a - err) <= w * fa) by (apply Rmult_le_compat_l; lra). assert ((1 - w) * (h b - err) <= (1 - w) * fb) by (apply Rmult_le_compat_l; lra). lra.
    + assert (w * (1 - a / t1) <= w * fa) by (apply Rmult_le_compat_l; lra). assert ((1 - w) * (1 - b / t1) <= (1 - w) * fb) by (apply Rmult_le_compat_l; lra). unfold Rdiv in *. lra.
Qed.

Lemma nearly_gap P Q e d err : nearly_divergence P Q e d err -> 0 <= d + err /\ 1 - exp e <= d + err /\ forall x, P x - exp e * Q x <= d + err.
Proof.
  intros (A & _). repeat split.
  - eapply Rle_trans; [|apply (A [] (SSorted_nil _))]. rewrite hockey_hs. apply hs_nonneg.
  - eapply Rle_trans; [|apply (A [] (SSorted_nil _))]. unfold hockey_stick. cbn. rewrite Rplus_0_r. eapply Rle_trans; [|apply pos_ge]. lra.
  - intros x. eapply Rle_trans; [|apply (A [x]); repeat constructor]. unfold hockey_stick. cbn.
    match goal with |- _ <= pos ?a + (pos ?b + 0) => pose proof (pos_ge a); pose proof (pos_nonneg b) end. lra.
Qed.

(** ** What the constructor accepts *)
Lemma new_mixture_ok sigma sens probs lb comps : new_mixture sigma sens probs lb = Ok comps -> rsum (fun p => p) probs = 1 ->
  0 < sigma /\ lb <= 0 /\ length probs = length sens /\ comps = filter (fun c => negb (Reqb (snd c) 0)) (combine sens probs) /\
  (forall c, In c comps -> 0 <= fst c /\ 0 < snd c) /\ rsum snd comps = 1 /\ (exists c, In c comps /\ 0 < fst c) /\
  (forall c, In c (combine sens probs) -> 0 <= snd c) /\ rsum snd (combine sens probs) = 1.
Proof.
  unfold new_mixture. destruct (Rleb_spec sigma 0) as [|S]; [discriminate|]. destruct (Rltb_spec 0 lb) as [|L]; [discriminate|].
  destruct (Nat.eqb_spec (length probs) (length sens)) as [EL|]; [|discriminate]. cbn [negb].
  set (cs := filter (fun c => negb (Reqb (snd c) 0)) (combine sens probs)). destruct (existsb (fun c => Rltb (fst c) 0) cs) eqn:X1; [discriminate|].
  intros H HT. assert (NE : cs <> []) by (intros E; rewrite E in H; discriminate). replace (match cs with [] => Err ValueError | _ :: _ => _ end) with
    (if Reqb (np_max (map fst cs)) 0 then Err ValueError else if negb (isclose (Fin (rsum snd cs)) (Fin 1)) then Err ValueError
     else if existsb (fun c => (Rleb (snd c) 0 || Rltb 1 (snd c))%bool) cs then Err ValueError else Ok cs) in H by (destruct cs; [congruence | reflexivity]).
  destruct (Reqb_spec (np_max (map fst cs)) 0) as [|NM]; [discriminate|]. destruct (negb _); [discriminate|]. destruct (existsb _ cs) eqn:X2 in H; [discriminate|]. injection H as <-.
  assert (OK : forall c, In c cs -> 0 <= fst c /\ 0 < snd c).
  { intros c I. pose proof (existsb_false_all _ _ X1 c I) as A. pose proof (existsb_false_all _ _ X2 c I) as B. cbn in A, B. apply Bool.orb_false_iff in B as [B _].
    destruct (Rltb_spec (fst c) 0); [discriminate|]. destruct (Rleb_spec (snd c) 0); [discriminate|]. lra. }
  assert (TO : rsum snd (combine sens probs) = 1).
  { rewrite <- HT. clear -EL. revert probs EL. induction sens as [|s sens IH]; intros [|p probs] EL; try discriminate; [reflexivity|]. cbn [combine rsum snd]. rewrite IH by (injection EL; auto). reflexivity. }
  assert (DR : forall c, In c (combine sens probs) -> In c cs \/ snd c = 0).
  { intros c I. destruct (Req_dec (snd c) 0) as [E|E]; [right; exact E | left]. apply filter_In. split; [exact I|]. destruct (Reqb_spec (snd c) 0); [contradiction | reflexivity]. }
  split; [lra|]. split; [lra|]. split; [exact EL|]. split; [reflexivity|]. split; [exact OK|]. split; [|split; [|split; [|exact TO]]].
  - rewrite <- TO. unfold cs. rewrite rsum_filter. apply rsum_ext. intros c _. destruct (Reqb_spec (snd c) 0); cbn [negb]; lra.
  - assert (NE' : map fst cs <> []) by (destruct cs; [congruence | discriminate]). destruct (np_max_spec (map fst cs) NE') as (I & _). apply in_map_iff in I as (c & E & I). exists c. split; [exact I|]. destruct (OK c I). rewrite <- E in NM. lra.
  - intros c I. destruct (DR c I) as [J|J]; [apply Rlt_le, OK, J | lra].
Qed.
Lemma drop_zero (f : R * R -> R) cs : (forall c, snd c = 0 -> f c = 0) -> rsum f (filter (fun c => negb (Reqb (snd c) 0)) cs) = rsum f cs.
Proof. intros H. rewrite rsum_filter. apply rsum_ext. intros c _. destruct (Reqb_spec (snd c) 0) as [E|]; cbn [negb]; [rewrite H by exact E; reflexivity | reflexivity]. Qed.
Lemma drop_mixed F cs x : mixed F (filter (fun c => negb (Reqb (snd c) 0)) cs) x = mixed F cs x.
Proof. apply drop_zero. intros c E. rewrite E. ring. Qed.
Lemma drop_upper adj F cs x : mixture_upper adj F (filter (fun c => negb (Reqb (snd c) 0)) cs) x = mixture_upper adj F cs x.
Proof. destruct adj; [reflexivity|]. cbn. unfold mixed. rewrite !minus_shift_sum. apply drop_zero. intros c E. cbn. rewrite E. ring. Qed.
Lemma drop_lower adj F cs x : mixture_lower adj F (filter (fun c => negb (Reqb (snd c) 0)) cs) x = mixture_lower adj F cs x.
Proof. destruct adj; [|reflexivity]. apply drop_mixed. Qed.
Lemma drop_positive cs : positive_part (filter (fun c => negb (Reqb (snd c) 0)) cs) = positive_part cs.
Proof.
  unfold positive_part. rewrite !rsum_filter. apply rsum_ext. intros c _. destruct (Reqb_spec (snd c) 0) as [E|]; cbn [negb]; [|reflexivity]. destruct (Rltb 0 (fst c)); lra.
Qed.

Section Pld.
  Context (Phi ppf : R -> R) (HPhi : normal_cdf Phi) (HQ : quantile_of Phi ppf) (sigma : R) (Hs : 0 < sigma) (comps : list (R * R)).
  Hypothesis ok : forall c, In c comps -> 0 <= fst c /\ 0 < snd c.
  Hypothesis total : rsum snd comps = 1.
  Hypothesis some : exists c, In c comps /\ 0 < fst c.
  Context (smax : R) (Hmax : forall c, In c comps -> fst c <= smax).
  Notation q := (positive_part comps).
  Notation err := (mixture_error sigma smax q).

  Lemma deltas_any adj fuel eps ds : mx_deltas Phi fuel sigma comps adj eps = Ok ds ->
    one_sensitivity comps \/ ((exists e, In e eps /\ proper_epsilon adj q e) -> anchored adj q eps) ->
    Forall2 (fun e d => nearly_divergence (upper Phi sigma comps adj) (lower Phi sigma comps adj) e d err) eps ds.
  Proof.
    intros H [O|HA]; [apply (deltas_ok Phi HPhi sigma Hs comps ok total some smax Hmax adj fuel eps ds H); left; exact O|].
    destruct (Classical_Prop.classic (exists e, In e eps /\ proper_epsilon adj q e)) as [X|X]; [apply (deltas_ok Phi HPhi sigma Hs comps ok total some smax Hmax adj fuel eps ds H); right; apply HA, X|].
    revert H. unfold mx_deltas, raw_deltas. destruct (nondecreasing eps) eqn:ND; [|discriminate]. cbn [negb].
    destruct (mx_inverse_losses fuel sigma comps adj (filter (needs_cutoff comps adj) eps) (1 / 10 ^ 6)) as [xs|] eqn:EI; [|discriminate]. cbn [bind]. intros [= <-].
    apply running_ok; [apply upper_cdf; assumption | apply lower_cdf; assumption | exact ND |]. apply (scatter_ok Phi HPhi sigma Hs comps ok total some smax Hmax).
    assert (FE : filter (is_finite_loss comps adj) (filter (needs_cutoff comps adj) eps) = []).
    { destruct (filter (is_finite_loss comps adj) (filter (needs_cutoff comps adj) eps)) as [|e l] eqn:E; [reflexivity|]. exfalso. apply X. exists e.
      assert (I : In e (e :: l)) by (left; reflexivity). rewrite <- E in I. apply filter_In in I as (I & F). apply filter_In in I as (I & N). split; [exact I|].
      split; [apply (needs_eq comps ok total some), N | apply (finite_eq comps ok total some), F]. }
    unfold mx_inverse_losses in EI. rewrite FE in EI. destruct (negb _); [discriminate|]. destruct (filter (needs_cutoff comps adj) eps) as [|e l]; [injection EI as <-; constructor|].
    destruct (match adj with ADD => _ | REMOVE => _ end); discriminate.
  Qed.

  (** the privacy loss is negative on the right, or positive on the left *)
  Lemma rho_below x : 0 <= x -> rho sigma comps x < 1.
  Proof.
    intros Hx. assert (T1 : forall c, In c comps -> term sigma x c <= 1).
    { intros c I. destruct (ok c I) as [S _]. unfold term. apply exp_at_most_1. assert (0 <= (fst c * x + fst c * fst c / 2) / (sigma * sigma)) by (apply Rle_mult_inv_pos; [|nra]; assert (0 <= fst c * x) by (apply Rmult_le_pos; assumption); nra). unfold Rdiv in *. lra. }
    assert (L : rho sigma comps x <= 1) by (rewrite <- total; apply rsum_le; intros c I; pose proof (T1 c I); destruct (ok c I); nra).
    destruct (Rle_lt_or_eq_dec _ _ L) as [|E]; [assumption | exfalso]. destruct some as (c & I & P). destruct (ok c I) as [_ W].
    assert (G : rsum (fun c => snd c * (1 - term sigma x c)) comps = 0).
    { rewrite (rsum_ext _ (fun c => snd c - snd c * term sigma x c)) by (intros; ring). rewrite rsum_minus, total. unfold rho in E. lra. }
    assert (K : snd c * (1 - term sigma x c) <= 0). { rewrite <- G. apply (rsum_In_le (fun c => snd c * (1 - term sigma x c))); [|exact I]. intros c' I'. pose proof (T1 c' I'). destruct (ok c' I'). nra. }
    assert (term sigma x c < 1); [|nra]. unfold term. apply exp_below_1.
    assert (0 < (fst c * x + fst c * fst c / 2) / (sigma * sigma)) by (apply Rdiv_lt_0_compat; [|nra]; assert (0 <= fst c * x) by (apply Rmult_le_pos; lra); nra). unfold Rdiv in *. lra.
  Qed.

  Lemma zero_proper adj : 2 / 10 ^ 8 <= q -> proper_epsilon adj q 0.
  Proof.
    intros H. pose proof (q_le comps ok total) as L. assert (K : q < 1 -> ln (1 - q) <= - q).
    { intros L'. destruct (Rle_lt_dec (ln (1 - q)) (- q)) as [|N]; [assumption | exfalso]. apply exp_increasing in N. rewrite exp_ln in N by lra. pose proof (exp_ineq1_le (- q)). lra. }
    split.
    - intros L'. specialize (K L'). unfold loss_limit. destruct adj; lra.
    - intros (L' & N). specialize (K L'). revert N. unfold loss_limit. destruct adj.
      + rewrite Rminus_0_l, Rabs_Ropp, Rabs_right by lra. lra.
      + rewrite Rminus_0_l, Rabs_Ropp, Rabs_left by lra. lra.
  Qed.

  Lemma dots_anchored adj fuel lb disc p : 0 < disc -> lb <= 0 -> one_sensitivity comps \/ 2 / 10 ^ 8 <= q ->
    mx_dots_pmf Phi ppf fuel sigma comps true lb adj disc = Ok p ->
    exists l u ds, connect_dots_fixed_gap disc l u ds = Ok p /\
      Forall2 (fun e d => nearly_divergence (upper Phi sigma comps adj) (lower Phi sigma comps adj) e d err) (map (fun z => IZR z * disc) (zrange l (Z.to_nat (u - l + 1)))) ds /\
      exists t, mx_tail Phi ppf fuel sigma comps true lb adj = Ok t /\ mx_loss sigma comps adj (lower_x_truncation t) <= IZR u * disc.
  Proof.
    intros Hd Hlb HO H. unfold mx_dots_pmf in H. destruct (mx_tail Phi ppf fuel sigma comps true lb adj) as [t|] eqn:ET; [|discriminate]. cbn [bind] in H.
    set (u := Rceil (mx_loss sigma comps adj (lower_x_truncation t) / disc)) in *. set (l := Rfloor (mx_loss sigma comps adj (upper_x_truncation t) / disc)) in *.
    set (eps := map (fun z => IZR z * disc) (zrange l (Z.to_nat (u - l + 1)))) in *.
    destruct (mx_deltas Phi fuel sigma comps adj eps) as [ds|] eqn:ED; [|discriminate]. cbn [bind] in H. exists l, u, ds. split; [exact H|].
    split; [|exists t; split; [reflexivity|]; pose proof (Rceil_spec (mx_loss sigma comps adj (lower_x_truncation t) / disc)) as [_ C]; fold u in C;
             apply Rle_trans with (mx_loss sigma comps adj (lower_x_truncation t) / disc * disc); [right; field; lra | apply Rmult_le_compat_r; lra]].
    apply (deltas_any adj fuel eps ds ED). destruct HO as [O|Hq]; [left; exact O | right]. intros (e & I & P).
    assert (Z0 : ppf (1 / 2 * exp lb) <= 0).
    { apply (quantile_neg Phi); [assumption | assumption|]. pose proof (exp_pos lb). assert (exp lb <= 1) by (rewrite <- exp_0; apply exp_le; exact Hlb). lra. }
    assert (ends : match adj with REMOVE => (l <= -1)%Z | ADD => (1 <= u)%Z end).
    { unfold mx_tail in ET. destruct adj.
      - cbn [bind] in ET. injection ET as <-. cbn [lower_x_truncation] in u.
        assert (0 < mx_loss sigma comps ADD (sigma * ppf (1 / 2 * exp lb)) / disc).
        { apply Rdiv_lt_0_compat; [|exact Hd]. rewrite (mx_loss_eq sigma Hs comps ok total). cbn [mloss]. pose proof (rho_below (- (sigma * ppf (1 / 2 * exp lb))) ltac:(nra)) as B.
          apply ln_increasing in B; [|apply rho_pos; assumption]. rewrite ln_1 in B. lra. }
        pose proof (Rceil_spec (mx_loss sigma comps ADD (sigma * ppf (1 / 2 * exp lb)) / disc)) as [_ C]. fold u in C. assert (0 < IZR u) by lra. apply lt_IZR in H1. lia.
      - match type of ET with (let? _ := ?r in _) = _ => destruct r as [lo|]; [|discriminate] end. cbn [bind] in ET. injection ET as <-. cbn [upper_x_truncation] in l.
        assert (mx_loss sigma comps REMOVE (- (sigma * ppf (1 / 2 * exp lb))) / disc < 0).
        { assert (mx_loss sigma comps REMOVE (- (sigma * ppf (1 / 2 * exp lb))) < 0); [|unfold Rdiv; pose proof (Rinv_0_lt_compat _ Hd); nra].
          rewrite (mx_loss_eq sigma Hs comps ok total). cbn [mloss]. pose proof (rho_below (- (sigma * ppf (1 / 2 * exp lb))) ltac:(nra)) as B.
          apply ln_increasing in B; [|apply rho_pos; assumption]. rewrite ln_1 in B. lra. }
        pose proof (Rfloor_spec (mx_loss sigma comps REMOVE (- (sigma * ppf (1 / 2 * exp lb))) / disc)) as [C _]. fold l in C. assert (IZR l < 0) by lra. apply lt_IZR in H1. lia. }
    destruct (Classical_Prop.classic (match adj with REMOVE => e <= 0 | ADD => 0 <= e end)) as [S|S]; [exists e; split; [exact I|]; split; assumption|].
    exists 0. split; [|split; [apply zero_proper, Hq | destruct adj; lra]].
    unfold eps in *. apply in_map_iff in I as (z & <- & I). apply zrange_In in I. apply in_map_iff. exists 0%Z. split; [ring|]. apply zrange_In.
    destruct adj.
    - apply Rnot_le_lt in S. assert (IZR z < 0) by (destruct (Rlt_le_dec (IZR z) 0); [assumption | exfalso; nra]). apply lt_IZR in H0. lia.
    - apply Rnot_le_lt in S. assert (0 < IZR z) by (destruct (Rlt_le_dec 0 (IZR z)); [assumption | exfalso; nra]). apply lt_IZR in H0. lia.
  Qed.
End Pld.

Lemma combine_map_nearly disc (P : R -> R -> Prop) : forall zs ds, Forall2 P (map (fun z => IZR z * disc) zs) ds -> forall z d, In (z, d) (combine zs ds) -> P (IZR z * disc) d.
Proof.
  induction zs as [|z0 zs IH]; intros ds F z d I; inversion F as [|? d0 ? ds' H F']; subst; [destruct I|]. destruct I as [E|I]; [injection E as <- <-; exact H | apply (IH ds' F' z d I)].
Qed.

(** ** The distribution *)
Lemma mixture_dots_sound Phi ppf fuel sigma sens probs disc lb D smax E : normal_cdf Phi -> quantile_of Phi ppf -> 0 < disc ->
  from_mixture_gaussian_mechanism Phi ppf fuel sigma sens probs true disc lb true = Ok D ->
  rsum (fun p => p) probs = 1 -> (forall s, In s sens -> s <= smax) ->
  one_sensitivity (combine sens probs) \/ 2 / 10 ^ 8 <= positive_part (combine sens probs) ->
  mixture_query (normal_law Phi sigma) (combine sens probs) E ->
  valid E /\ forall eps, dp_both E eps (pld_delta D (Fin eps) + mixture_error sigma smax (positive_part (combine sens probs))).
Proof.
  intros HPhi HQ Hd H HT HM HO HE. unfold from_mixture_gaussian_mechanism in H.
  destruct (new_mixture sigma sens probs lb) as [comps|] eqn:EN; [|discriminate]. cbn [bind] in H.
  destruct (new_mixture_ok _ _ _ _ _ EN HT) as (Hs & Hlb & EL & EC & ok & total & some & Wn & Wt).
  unfold mx_pmf in H. cbn [andb] in H. destruct (mx_dots_pmf Phi ppf fuel sigma comps true lb REMOVE disc) as [r|] eqn:ER; [|discriminate]. cbn [bind] in H.
  destruct (mx_dots_pmf Phi ppf fuel sigma comps true lb ADD disc) as [a|] eqn:EA; [|discriminate]. cbn [bind] in H. injection H as <-.
  set (cs := combine sens probs) in *. set (q := positive_part cs).
  assert (Hmax : forall c, In c comps -> fst c <= smax).
  { intros c I. rewrite EC in I. apply filter_In in I as (I & _). destruct c as [s p]. apply HM. apply in_combine_l in I. exact I. }
  assert (QE : positive_part comps = q) by (rewrite EC; apply drop_positive).
  assert (HO' : one_sensitivity comps \/ 2 / 10 ^ 8 <= positive_part comps).
  { destruct HO as [O|L]; [left | right; rewrite QE; exact L]. intros c c' I I'. rewrite EC in I, I'. apply filter_In in I as (I & _). apply filter_In in I' as (I' & _). apply O; assumption. }
  assert (V : valid E).
  { apply (dom_query Phi HPhi sigma Hs cs Wn Wt E REMOVE 0 2 HE); try lra. intros x. rewrite <- drop_upper. fold cs. rewrite <- EC. destruct (upper_cdf Phi HPhi sigma Hs comps ok total REMOVE) as (B & _). specialize (B x). unfold upper in B. change (law Phi sigma) with (normal_law Phi sigma) in *. lra. }
  split; [exact V|].
  set (err := mixture_error sigma smax q).
  assert (E0 : 0 <= err) by (unfold err; rewrite <- QE; apply (err_nonneg sigma Hs comps ok total smax Hmax)).
  assert (K : forall adj p, mx_dots_pmf Phi ppf fuel sigma comps true lb adj disc = Ok p -> forall e, hs (match adj with REMOVE => E | ADD => swap E end) 1 (exp e) - err <= pmf_delta p (Fin e)).
  { intros adj p HP e. destruct (dots_anchored Phi ppf HPhi HQ sigma Hs comps ok total some smax Hmax adj fuel lb disc p Hd Hlb HO' HP) as (l & u & ds & CD & F & _).
    rewrite (fixed_gap_eq disc Hd) in CD. set (E' := match adj with REMOVE => E | ADD => swap E end). assert (V' : valid E') by (unfold E'; destruct adj; [apply valid_swap|]; exact V).
    destruct (dots_ok disc Hd _ _ _ CD) as (C1 & C2 & NE & G & R01 & _).
    pose proof (short_curve (fun t => hs E' 1 t) err (exp (IZR l * disc)) (exper_curve E' V') E0 (exp_pos _)) as SC.
    eapply Rle_trans; [|apply (dots_dominates disc Hd _ _ _ _ CD SC)].
    - eapply Rle_trans; [|apply Rmax_l]. apply Rmax_r.
    - intros z d I. pose proof (combine_map_nearly disc _ _ _ F z d I) as N. apply nearly_gap in N as (N0 & N1 & N2). fold q in QE. rewrite QE in *. fold err in N0, N1, N2.
      pose proof (in_combine_r _ _ _ _ I) as Id. apply R01 in Id. pose proof (in_combine_l _ _ _ _ I) as Iz. apply zrange_In in Iz.
      assert (T1 : 1 - exp (IZR z * disc) / exp (IZR l * disc) <= 0).
      { assert (exp (IZR l * disc) <= exp (IZR z * disc)) by (apply exp_le, Rmult_le_compat_r; [lra | apply IZR_le; lia]). pose proof (exp_pos (IZR l * disc)).
        assert (1 <= exp (IZR z * disc) / exp (IZR l * disc)); [|lra]. apply (Rmult_le_reg_r (exp (IZR l * disc))); [assumption|]. unfold Rdiv. rewrite Rmult_assoc, Rinv_l by lra. lra. }
      assert (HH : hs E' 1 (exp (IZR z * disc)) <= d + err).
      { destruct (dom_query Phi HPhi sigma Hs cs Wn Wt E adj (exp (IZR z * disc)) (d + err) HE (exp_pos_nonneg _) N0 N1) as (_ & B).
        - intros x. rewrite <- drop_upper, <- drop_lower. fold cs. rewrite <- EC. apply N2.
        - unfold E'. destruct adj; exact B. }
      apply Rmax_lub; [apply Rmax_lub|]; lra. }
  intros eps. pose proof (K REMOVE r ER eps) as KR. pose proof (K ADD a EA eps) as KA. cbn iota in KR, KA.
  unfold pld_delta. cbn [symmetric new_pld pmf_remove pmf_add]. pose proof (Rmax_l (pmf_delta r (Fin eps)) (pmf_delta a (Fin eps))). pose proof (Rmax_r (pmf_delta r (Fin eps)) (pmf_delta a (Fin eps))).
  split; apply dp_iff_hockey; rewrite hockey_hs; lra.
Qed.
