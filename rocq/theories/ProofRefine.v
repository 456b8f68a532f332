(** Refinements of experiments (data processing), symmetric experiments, and the reverse direction
    of Poisson subsampling. *)
From Verif Require Import Base XReal SpecDP SpecRenyi SpecMech ProofDP ProofPeak ProofShape ProofRenyi ProofObserve ProofGaussRdp ProofLapRdp ProofPoisson.
Local Arguments Rltb : simpl never.
Local Arguments Rleb : simpl never.
Local Arguments Reqb : simpl never.

(** [E'] tells at least as much as [E]. *)
Definition refines (E' E : exper) : Prop :=
  exists part : outcome E -> list (outcome E'),
    (forall f, rsum f (outs E') = rsum (fun o => rsum f (part o)) (outs E)) /\
    (forall o, In o (outs E) -> prP E o = rsum (prP E') (part o) /\ prQ E o = rsum (prQ E') (part o) /\
       forall o', In o' (part o) -> In o' (outs E')).
Lemma refines_refl E : refines E E.
Proof.
  exists (fun o => [o]). split.
  - intros f. apply rsum_ext. intros; cbn; lra.
  - intros o Ho. cbn. split; [lra|]. split; [lra|]. intros o' [<-|[]]. assumption.
Qed.
Lemma refines_trans E1 E2 E3 : refines E1 E2 -> refines E2 E3 -> refines E1 E3.
Proof.
  intros (p12 & S12 & H12) (p23 & S23 & H23). exists (fun o => flat_map p12 (p23 o)). split.
  - intros f. rewrite S12, S23. apply rsum_ext. intros o _. symmetry. apply rsum_flat_map.
  - intros o Ho. destruct (H23 o Ho) as (A & B & C). rewrite !rsum_flat_map. split; [|split].
    + rewrite A. apply rsum_ext. intros o' Ho'. apply (H12 o'), C, Ho'.
    + rewrite B. apply rsum_ext. intros o' Ho'. apply (H12 o'), C, Ho'.
    + intros o' Ho'. apply in_flat_map in Ho'. destruct Ho' as (o2 & I2 & I1). apply (proj2 (proj2 (H12 o2 (C o2 I2))) o' I1).
Qed.
Lemma refines_swap E' E : refines E' E -> refines (swap E') (swap E).
Proof. intros (part & S & H). exists part. split; [exact S|]. intros o Ho. destruct (H o Ho) as (A & B & C). cbn. auto. Qed.
Lemma refines_mix q E' E : refines E' E -> refines (poisson_mix q E') (poisson_mix q E).
Proof.
  intros (part & S & H). exists part. split; [exact S|]. intros o Ho. destruct (H o Ho) as (A & B & C). cbn. split; [|split]; [|assumption|assumption].
  rewrite rsum_plus, !rsum_scal, A, B. reflexivity.
Qed.
Lemma refines_seq E1' E1 E2' E2 : refines E1' E1 -> refines E2' E2 -> refines (seq_exper E1' (fun _ => E2')) (seq_exper E1 (fun _ => E2)).
Proof.
  intros (p1 & S1 & H1) (p2 & S2 & H2).
  exists (fun o => flat_map (fun a => map (existT (fun _ => outcome E2') a) (p2 (projT2 o))) (p1 (projT1 o))). split.
  - intros f. cbn [outs seq_exper]. rewrite !rsum_flat_map, S1. apply rsum_ext. intros o1 _.
    rewrite rsum_map. cbn [projT1 projT2].
    transitivity (rsum (fun o' => rsum (fun o2 => rsum (fun b => f (existT _ o' b)) (p2 o2)) (outs E2)) (p1 o1)).
    + apply rsum_ext. intros o' _. rewrite rsum_map. apply S2.
    + rewrite rsum_swap. apply rsum_ext. intros o2 _. rewrite rsum_flat_map. apply rsum_ext. intros o' _. rewrite rsum_map. reflexivity.
  - intros o Ho. cbn [outs seq_exper] in Ho. apply in_flat_map in Ho. destruct Ho as (x & Ix & Iy).
    apply in_map_iff in Iy. destruct Iy as (o2 & <- & Iy).
    destruct (H1 x Ix) as (A1 & B1 & C1). destruct (H2 o2 Iy) as (A2 & B2 & C2).
    assert (PR : forall (g1 : outcome E1' -> R) (g2 : outcome E2' -> R), rsum (fun ab : {_ : outcome E1' & outcome E2'} => g1 (projT1 ab) * g2 (projT2 ab))
        (flat_map (fun a => map (existT (fun _ => outcome E2') a) (p2 o2)) (p1 x)) = rsum g1 (p1 x) * rsum g2 (p2 o2)).
    { intros g1 g2. rewrite rsum_flat_map. rewrite <- rsum_scal_r. apply rsum_ext. intros a _. rewrite rsum_map. cbn [projT1 projT2]. apply rsum_scal. }
    cbn [prP prQ seq_exper projT1 projT2]. rewrite !PR, A1, A2, B1, B2. split; [reflexivity|]. split; [reflexivity|].
    intros o' Ho'. apply in_flat_map in Ho'. destruct Ho' as (u & Iu & Iv). apply in_map_iff in Iv. destruct Iv as (w & <- & Iw).
    cbn [outs seq_exper]. apply in_flat_map. exists u. split; [apply C1, Iu|]. apply in_map, C2, Iw.
Qed.

Lemma moment_is_terms E a : renyi_moment E a = rsum (fun o => moment_term a (prP E o) (prQ E o)) (outs E).
Proof. reflexivity. Qed.
Lemma tangent_term a t p q : 1 <= a -> 0 < t -> 0 <= p -> 0 <= q -> (q = 0 -> p = 0) -> tangent a t p q <= moment_term a p q.
Proof.
  intros Ha Ht Hp Hq Z. unfold moment_term. destruct (Reqb_spec p 0) as [->|N].
  - unfold tangent. pose proof (Rpower_pos t a). assert (0 <= (a - 1) * Rpower t a * q) by (apply Rmult_le_pos; [apply Rmult_le_pos|]; lra). lra.
  - assert (0 < p) by lra. assert (0 < q) by (destruct Hq as [|E]; [assumption | exfalso; apply N, Z; auto]).
    pose proof (tangent_below a t (ln p) (ln q) Ha Ht) as T. rewrite !exp_ln in T by assumption.
    eapply Rle_trans; [exact T|]. right. replace (p * Rpower (p / q) (a - 1)) with (exp (ln p) * Rpower (p / q) (a - 1)) by (rewrite exp_ln by assumption; reflexivity).
    unfold Rpower. rewrite ln_div, <- exp_plus by assumption. f_equal. ring.
Qed.
Lemma term_nonneg a p q : 0 <= p -> 0 <= moment_term a p q.
Proof. intros H. unfold moment_term. destruct (Reqb p 0); [lra|]. apply Rmult_le_pos; [assumption | left; apply Rpower_pos]. Qed.
Lemma tangent_rsum {A} a t (p q : A -> R) l : tangent a t (rsum p l) (rsum q l) = rsum (fun x => tangent a t (p x) (q x)) l.
Proof. unfold tangent. rewrite rsum_minus, !rsum_scal. reflexivity. Qed.
(** Data processing. *)
Lemma refines_moment E' E a : 1 < a -> (forall o, In o (outs E') -> 0 <= prP E' o /\ 0 <= prQ E' o) -> absolutely_continuous E' -> refines E' E ->
  absolutely_continuous E /\ renyi_moment E a <= renyi_moment E' a.
Proof.
  intros Ha V AC (part & S & H).
  assert (ONE : forall o, In o (outs E) -> (prQ E o = 0 -> prP E o = 0) /\
     moment_term a (prP E o) (prQ E o) <= rsum (fun o' => moment_term a (prP E' o') (prQ E' o')) (part o)).
  { intros o Ho. destruct (H o Ho) as (-> & -> & C). apply term_bound; try assumption.
    - apply rsum_nonneg. intros o' I. apply V, C, I.
    - apply rsum_nonneg. intros o' I. apply V, C, I.
    - apply rsum_nonneg. intros o' I. apply term_nonneg, V, C, I.
    - intros t Ht. rewrite tangent_rsum. apply rsum_le. intros o' I. apply tangent_term; try lra; try (apply V, C, I). apply AC, C, I. }
  split; [intros o Ho; apply (ONE o Ho)|]. rewrite !moment_is_terms, S. apply rsum_le. intros o Ho. apply (ONE o Ho).
Qed.

(** ** Symmetric experiments *)
Definition symmetric_exper (E : exper) : Prop :=
  exists nu : outcome E -> outcome E, (forall f, rsum (fun o => f (nu o)) (outs E) = rsum f (outs E)) /\
    forall o, In o (outs E) -> prP E (nu o) = prQ E o /\ prQ E (nu o) = prP E o.
Lemma symmetric_seq E1 E2 : symmetric_exper E1 -> symmetric_exper E2 -> symmetric_exper (seq_exper E1 (fun _ => E2)).
Proof.
  intros (n1 & S1 & H1) (n2 & S2 & H2). exists (fun o => existT (fun _ => outcome E2) (n1 (projT1 o)) (n2 (projT2 o))). split.
  - intros f. cbn [outs seq_exper]. rewrite !rsum_flat_map.
    transitivity (rsum (fun a => rsum (fun b => f (existT (fun _ => outcome E2) (n1 a) (n2 b))) (outs E2)) (outs E1)).
    + apply rsum_ext. intros a _. rewrite rsum_map. reflexivity.
    + transitivity (rsum (fun a => rsum (fun b => f (existT (fun _ => outcome E2) (n1 a) b)) (outs E2)) (outs E1)).
      * apply rsum_ext. intros a _. apply (S2 (fun b => f (existT (fun _ => outcome E2) (n1 a) b))).
      * rewrite (S1 (fun a => rsum (fun b => f (existT (fun _ => outcome E2) a b)) (outs E2))). apply rsum_ext. intros a _. rewrite rsum_map. reflexivity.
  - intros o Ho. cbn [outs seq_exper] in Ho. apply in_flat_map in Ho. destruct Ho as (x & Ix & Iy). apply in_map_iff in Iy. destruct Iy as (y & <- & Iy).
    cbn [prP prQ seq_exper projT1 projT2]. destruct (H1 x Ix) as [-> ->]. destruct (H2 y Iy) as [-> ->]. auto.
Qed.
Lemma symmetric_silent : symmetric_exper silent.
Proof. exists (fun o => o). split; [reflexivity|]. intros; auto. Qed.

(** k(t) >= 0 *)
Lemma sinh_like a t : 1 <= a -> 0 <= t -> a * (exp ((a - 1) * t) - exp (- (a - 1) * t)) <= (a - 1) * (exp (a * t) - exp (- a * t)).
Proof.
  intros Ha Ht.
  pose (h := fun z => ((a - 1) * exp (a * z + 0) - (a - 1) * exp (- a * z + 0)) - (a * exp ((a - 1) * z + 0) - a * exp (- (a - 1) * z + 0))).
  enough (h 0 <= h t) as H.
  { unfold h in H. rewrite !Rmult_0_r, !Rplus_0_r, !exp_0 in H. lra. }
  apply (deriv_nonneg h (fun z => ((a - 1) * a * exp (a * z + 0) - (a - 1) * - a * exp (- a * z + 0)) -
     (a * (a - 1) * exp ((a - 1) * z + 0) - a * - (a - 1) * exp (- (a - 1) * z + 0)))); [|assumption|].
  - intros z.
    apply (derivable_pt_lim_minus (fun z => (a - 1) * exp (a * z + 0) - (a - 1) * exp (- a * z + 0)) (fun z => a * exp ((a - 1) * z + 0) - a * exp (- (a - 1) * z + 0))).
    + apply (derivable_pt_lim_minus (fun z => (a - 1) * exp (a * z + 0)) (fun z => (a - 1) * exp (- a * z + 0))); apply ProofLapRdp.exp_lin_deriv.
    + apply (derivable_pt_lim_minus (fun z => a * exp ((a - 1) * z + 0)) (fun z => a * exp (- (a - 1) * z + 0))); apply ProofLapRdp.exp_lin_deriv.
  - intros z Hz. rewrite !Rplus_0_r.
    (* cosh (a z) >= cosh ((a-1) z) *)
    set (u := (a - 1) * z). replace (a * z) with (u + z) by (unfold u; ring). replace (- a * z) with (- u + - z) by (unfold u; ring).
    replace (- (a - 1) * z) with (- u) by (unfold u; ring).
    assert (Hu : 0 <= u) by (apply Rmult_le_pos; lra).
    assert (CO : exp u + exp (- u) <= exp (u + z) + exp (- u + - z)).
    { rewrite !exp_plus.
      assert (1 <= exp z) by (rewrite <- exp_0; apply exp_le; lra). 
      assert (X : 0 < exp (- u) <= exp u) by (split; [apply exp_pos | apply exp_le; lra]).
      assert (Y : exp z * exp (- z) = 1) by (rewrite <- exp_plus, Rplus_opp_r, exp_0; reflexivity).
      assert (0 < exp (- z) <= 1) by (split; [apply exp_pos|]; rewrite <- exp_0; apply exp_le; lra).
      (* exp u (exp z - 1) >= exp(-u) (1 - exp(-z)) *)
      assert (1 - exp (- z) <= exp z - 1) by nra.
      assert (exp (- u) * (1 - exp (- z)) <= exp u * (exp z - 1)); [|lra].
      apply Rmult_le_compat; lra. }
    assert (0 <= a * (a - 1)) by (apply Rmult_le_pos; lra). nra.
Qed.

(** F(x, y) = x^a y^(1-a) - x^(1-a) y^a decreases when x >= y grow together. *)
Definition Fpow a x y := exp (a * ln x + (1 - a) * ln y) - exp ((1 - a) * ln x + a * ln y).
Lemma Fpow_deriv a x y s : 0 < x -> 0 < y -> 0 <= s -> derivable_pt_lim (fun s => Fpow a (x + s) (y + s)) s
  (exp (a * ln (x + s) + (1 - a) * ln (y + s)) * (a * / (x + s) + (1 - a) * / (y + s)) -
   exp ((1 - a) * ln (x + s) + a * ln (y + s)) * ((1 - a) * / (x + s) + a * / (y + s))).
Proof.
  intros Hx Hy Hs.
  assert (LN : forall x, 0 < x -> derivable_pt_lim (fun s => ln (x + s)) s (/ (x + s))).
  { intros w Hw. replace (/ (w + s)) with (/ (w + s) * 1) by ring.
    apply (derivable_pt_lim_comp (fun s => w + s) ln s 1); [|apply derivable_pt_lim_ln; lra].
    replace 1 with (0 + 1) by ring. apply (derivable_pt_lim_plus (fun _ => w) id); [apply derivable_pt_lim_const | apply derivable_pt_lim_id]. }
  assert (CO : forall c1 c2, derivable_pt_lim (fun s => exp (c1 * ln (x + s) + c2 * ln (y + s))) s (exp (c1 * ln (x + s) + c2 * ln (y + s)) * (c1 * / (x + s) + c2 * / (y + s)))).
  { intros c1 c2. apply (derivable_pt_lim_comp (fun s => c1 * ln (x + s) + c2 * ln (y + s)) exp); [|apply derivable_pt_lim_exp].
    apply (derivable_pt_lim_plus (fun s => c1 * ln (x + s)) (fun s => c2 * ln (y + s))).
    - apply (derivable_pt_lim_scal (fun s => ln (x + s)) c1), LN, Hx.
    - apply (derivable_pt_lim_scal (fun s => ln (y + s)) c2), LN, Hy. }
  apply (derivable_pt_lim_minus (fun s => exp (a * ln (x + s) + (1 - a) * ln (y + s))) (fun s => exp ((1 - a) * ln (x + s) + a * ln (y + s)))); apply CO.
Qed.
Lemma Fpow_dec a x y s : 1 <= a -> 0 < y -> y <= x -> 0 <= s -> Fpow a (x + s) (y + s) <= Fpow a x y.
Proof.
  intros Ha Hy L Hs. destruct (Rle_lt_or_eq_dec 0 s Hs) as [Hs'|<-]; [|rewrite !Rplus_0_r; lra].
  set (D := fun s => exp (a * ln (x + s) + (1 - a) * ln (y + s)) * (a * / (x + s) + (1 - a) * / (y + s)) -
   exp ((1 - a) * ln (x + s) + a * ln (y + s)) * ((1 - a) * / (x + s) + a * / (y + s))).
  destruct (MVT_cor2 (fun s => Fpow a (x + s) (y + s)) D 0 s Hs') as (c & E & Hc).
  { intros z Hz. apply Fpow_deriv; lra. }
  rewrite !Rplus_0_r in E. enough (D c <= 0) by nra. unfold D.
  set (X := x + c). set (Y := y + c). assert (HY : 0 < Y) by (unfold Y; lra). assert (HX : Y <= X) by (unfold X, Y; lra).
  set (t := ln X - ln Y). assert (Ht : 0 <= t) by (unfold t; pose proof (ln_le_mono Y X HY HX); lra).
  assert (EI : forall z, 0 < z -> / z = exp (- ln z)) by (intros z Hz; rewrite exp_Ropp, exp_ln by assumption; reflexivity).
  rewrite (EI X), (EI Y) by lra.
  assert (E1 : exp (a * ln X + (1 - a) * ln Y) * (a * exp (- ln X) + (1 - a) * exp (- ln Y)) = a * exp ((a - 1) * t) + (1 - a) * exp (a * t)).
  { rewrite Rmult_plus_distr_l. replace (exp (a * ln X + (1 - a) * ln Y) * (a * exp (- ln X))) with (a * (exp (a * ln X + (1 - a) * ln Y) * exp (- ln X))) by ring.
    replace (exp (a * ln X + (1 - a) * ln Y) * ((1 - a) * exp (- ln Y))) with ((1 - a) * (exp (a * ln X + (1 - a) * ln Y) * exp (- ln Y))) by ring.
    rewrite <- !exp_plus. unfold t. f_equal; f_equal; f_equal; ring. }
  assert (E2 : exp ((1 - a) * ln X + a * ln Y) * ((1 - a) * exp (- ln X) + a * exp (- ln Y)) = (1 - a) * exp (- a * t) + a * exp (- (a - 1) * t)).
  { rewrite Rmult_plus_distr_l. replace (exp ((1 - a) * ln X + a * ln Y) * ((1 - a) * exp (- ln X))) with ((1 - a) * (exp ((1 - a) * ln X + a * ln Y) * exp (- ln X))) by ring.
    replace (exp ((1 - a) * ln X + a * ln Y) * (a * exp (- ln Y))) with (a * (exp ((1 - a) * ln X + a * ln Y) * exp (- ln Y))) by ring.
    rewrite <- !exp_plus. unfold t. f_equal; f_equal; f_equal; ring. }
  rewrite E1, E2. pose proof (sinh_like a t Ha Ht). lra.
Qed.
Lemma Fpow_anti a x y : Fpow a x y = - Fpow a y x.
Proof. unfold Fpow. replace (a * ln x + (1 - a) * ln y) with ((1 - a) * ln y + a * ln x) by ring. replace ((1 - a) * ln x + a * ln y) with (a * ln y + (1 - a) * ln x) by ring. ring. Qed.
Lemma term_Fpow a x y : 0 < x -> 0 < y -> moment_term a x y - moment_term a y x = Fpow a x y.
Proof.
  intros Hx Hy. assert (T : forall x y, 0 < x -> 0 < y -> moment_term a x y = exp (a * ln x + (1 - a) * ln y)).
  { intros u v Hu Hv. unfold moment_term. rewrite Reqb_false by lra. replace (u * Rpower (u / v) (a - 1)) with (exp (ln u) * Rpower (u / v) (a - 1)) by (rewrite exp_ln by assumption; reflexivity).
    unfold Rpower. rewrite ln_div, <- exp_plus by assumption. f_equal. ring. }
  rewrite !T by assumption. unfold Fpow. f_equal. f_equal. ring.
Qed.
Lemma pair_gain a q p r : 1 <= a -> 0 <= q <= 1 -> 0 < p -> 0 < r ->
  0 <= Fpow a ((1 - q) * r + q * p) r + Fpow a ((1 - q) * p + q * r) p.
Proof.
  intros Ha Hq Hp Hr. assert (W : forall p r, 0 < p -> 0 < r -> r <= p -> 0 <= Fpow a ((1 - q) * r + q * p) r + Fpow a ((1 - q) * p + q * r) p).
  { clear p r Hp Hr. intros p r Hp Hr L. rewrite (Fpow_anti a ((1 - q) * p + q * r) p).
    pose proof (Fpow_dec a ((1 - q) * r + q * p) r ((1 - q) * (p - r)) Ha Hr ltac:(nra) ltac:(nra)) as H.
    replace ((1 - q) * r + q * p + (1 - q) * (p - r)) with p in H by ring. replace (r + (1 - q) * (p - r)) with ((1 - q) * p + q * r) in H by ring. lra. }
  destruct (Rle_dec r p); [apply W; assumption|]. rewrite Rplus_comm. apply W; lra.
Qed.
Lemma mix_reverse q E a : 1 < a -> 0 <= q <= 1 -> valid E -> absolutely_continuous E -> absolutely_continuous (swap E) -> symmetric_exper E ->
  absolutely_continuous (swap (poisson_mix q E)) /\ renyi_moment (swap (poisson_mix q E)) a <= renyi_moment (poisson_mix q E) a.
Proof.
  intros Ha Hq (V & _) AC AS (nu & S & H).
  assert (Z : forall o, In o (outs E) -> (prP E o = 0 /\ prQ E o = 0) \/ (0 < prP E o /\ 0 < prQ E o)).
  { intros o Ho. destruct (V o Ho) as [HP HQ]. destruct (Req_dec (prP E o) 0) as [E1|E1].
    - left. split; [assumption | apply (AS o Ho); assumption].
    - right. assert (prQ E o <> 0) by (intros X; apply E1, AC; assumption). lra. }
  split.
  - intros o Ho M. cbn in *. destruct (Z o Ho) as [[E1 E2]|[HP HQ]]; [assumption|]. exfalso. nra.
  - rewrite !moment_is_terms.
    change (rsum (fun o => moment_term a (prQ E o) ((1 - q) * prQ E o + q * prP E o)) (outs E) <= rsum (fun o => moment_term a ((1 - q) * prQ E o + q * prP E o) (prQ E o)) (outs E)).
    pose (phi := fun p r => moment_term a ((1 - q) * r + q * p) r - moment_term a r ((1 - q) * r + q * p)).
    enough (0 <= rsum (fun o => phi (prP E o) (prQ E o)) (outs E)) as G.
    { unfold phi in G. rewrite rsum_minus in G. lra. }
    assert (E2 : rsum (fun o => phi (prP E o) (prQ E o)) (outs E) = rsum (fun o => phi (prQ E o) (prP E o)) (outs E)).
    { rewrite <- (S (fun o => phi (prP E o) (prQ E o))). apply rsum_ext. intros o Ho. destruct (H o Ho) as [-> ->]. reflexivity. }
    enough (0 <= rsum (fun o => phi (prP E o) (prQ E o) + phi (prQ E o) (prP E o)) (outs E)) as G by (rewrite rsum_plus in G; lra).
    apply rsum_nonneg. intros o Ho. unfold phi. destruct (Z o Ho) as [[-> ->]|[HP HQ]].
    + unfold moment_term. rewrite !Rmult_0_r, Rplus_0_r, Reqb_refl. lra.
    + rewrite !term_Fpow by nra. apply pair_gain; lra.
Qed.
