(** The numerical inversion of the privacy loss of a mixture of Gaussians. *)
From Coq Require Import Lra.
From Verif Require Import Base XReal Exn TypesAdjacency SpecDP SpecMech SpecMixture ModelLog ModelMech ModelMixture ProofDP ProofPeak ProofLog ProofMix ProofMixLaw.
Local Arguments Rltb : simpl never.
Local Arguments Rleb : simpl never.
Local Arguments Reqb : simpl never.

Lemma fold_min l : forall a, fold_left Rmin l a <= a /\ (forall x, In x l -> fold_left Rmin l a <= x) /\ (fold_left Rmin l a = a \/ In (fold_left Rmin l a) l).
Proof.
  induction l as [|b l IH]; intros a; cbn [fold_left].
  - split; [lra|]. split; [intros ? [] | left; reflexivity].
  - destruct (IH (Rmin a b)) as (H1 & H2 & H3). pose proof (Rmin_l a b). pose proof (Rmin_r a b). split; [lra|]. split.
    + intros x [<-|I]; [lra | apply H2, I].
    + destruct H3 as [E|E]; [|right; right; exact E]. rewrite E. unfold Rmin. destruct (Rle_dec a b); [left; reflexivity | right; left; reflexivity].
Qed.
Lemma fold_max l : forall a, a <= fold_left Rmax l a /\ (forall x, In x l -> x <= fold_left Rmax l a) /\ (fold_left Rmax l a = a \/ In (fold_left Rmax l a) l).
Proof.
  induction l as [|b l IH]; intros a; cbn [fold_left].
  - split; [lra|]. split; [intros ? [] | left; reflexivity].
  - destruct (IH (Rmax a b)) as (H1 & H2 & H3). pose proof (Rmax_l a b). pose proof (Rmax_r a b). split; [lra|]. split.
    + intros x [<-|I]; [lra | apply H2, I].
    + destruct H3 as [E|E]; [|right; right; exact E]. rewrite E. unfold Rmax. destruct (Rle_dec a b); [right; left; reflexivity | left; reflexivity].
Qed.
Lemma np_min_spec l : l <> [] -> In (np_min l) l /\ forall x, In x l -> np_min l <= x.
Proof.
  destruct l as [|a l]; [congruence|]. intros _. cbn [np_min]. destruct (fold_min l a) as (H1 & H2 & H3). split; [destruct H3 as [->|I]; [left; reflexivity | right; exact I]|].
  intros x [<-|I]; [exact H1 | apply H2, I].
Qed.
Lemma np_max_spec l : l <> [] -> In (np_max l) l /\ forall x, In x l -> x <= np_max l.
Proof.
  destruct l as [|a l]; [congruence|]. intros _. cbn [np_max]. destruct (fold_max l a) as (H1 & H2 & H3). split; [destruct H3 as [->|I]; [left; reflexivity | right; exact I]|].
  intros x [<-|I]; [exact H1 | apply H2, I].
Qed.
Lemma nondecreasing_ends l : nondecreasing l = true -> forall a, In a l -> hd a l <= a <= last l a.
Proof.
  induction l as [|b l IH]; intros H a I; [destruct I|]. cbn [hd]. destruct l as [|c l].
  - cbn. destruct I as [<-|[]]. lra.
  - cbn [nondecreasing] in H. apply Bool.andb_true_iff in H as [L H]. destruct (Rleb_spec b c) as [L'|]; [|discriminate]. change (last (b :: c :: l) a) with (last (c :: l) a).
    destruct I as [<-|I].
    + split; [lra|]. pose proof (IH H c (or_introl eq_refl)) as (_ & K). assert (E : last (c :: l) b = last (c :: l) c) by (clear; revert c; induction l as [|x l IHl]; intros c; [reflexivity|]; change (last (c :: x :: l) b) with (last (x :: l) b); change (last (c :: x :: l) c) with (last (x :: l) c); clear IHl; revert x; induction l as [|y l IHl]; intros x; [reflexivity|]; change (last (x :: y :: l) b) with (last (y :: l) b); change (last (x :: y :: l) c) with (last (y :: l) c); apply IHl). rewrite E. lra.
    + pose proof (IH H a I) as (K1 & K2). pose proof (IH H c (or_introl eq_refl)). cbn [hd] in *. lra.
Qed.
Lemma last_default {A} (l : list A) a b : l <> [] -> last l a = last l b.
Proof. induction l as [|x l IH]; [congruence|]. intros _. destruct l as [|y l]; [reflexivity|]. change (last (y :: l) a = last (y :: l) b). apply IH. discriminate. Qed.
Lemma last_in {A} (l : list A) a : l <> [] -> In (last l a) l.
Proof. induction l as [|x l IH]; [congruence|]. intros _. destruct l as [|y l]; [left; reflexivity|]. right. apply IH. discriminate. Qed.

Lemma concave_between a b s y k : a <= s <= b -> k <= - (a * y + a * a / 2) -> k <= - (b * y + b * b / 2) -> k <= - (s * y + s * s / 2).
Proof.
  intros H E1 E2. destruct (Rle_lt_or_eq_dec a b) as [AB|AB]; [lra| |].
  - apply (Rmult_le_reg_l (b - a)); [lra|].
    assert (F1 : (b - s) * k <= (b - s) * - (a * y + a * a / 2)) by (apply Rmult_le_compat_l; lra).
    assert (F2 : (s - a) * k <= (s - a) * - (b * y + b * b / 2)) by (apply Rmult_le_compat_l; lra).
    assert (F3 : 0 <= (b - a) * ((s - a) * (b - s))) by (repeat apply Rmult_le_pos; lra). nra.
  - assert (s = a) by lra. subst s. exact E1.
Qed.

Lemma floor_near b p : 0 < p -> b - p <= IZR (Rfloor (b / p)) * p <= b.
Proof.
  intros Hp. pose proof (Rfloor_spec (b / p)) as [F1 F2]. apply (Rmult_le_compat_r p) in F1; [|lra]. apply (Rmult_lt_compat_r p) in F2; [|lra].
  replace (b / p * p) with b in * by (field; lra). lra.
Qed.

Section Inv.
  Context (Phi : R -> R) (HPhi : normal_cdf Phi) (sigma : R) (Hs : 0 < sigma) (comps : list (R * R)).
  Hypothesis ok : forall c, In c comps -> 0 <= fst c /\ 0 < snd c.
  Hypothesis total : rsum snd comps = 1.
  Hypothesis some : exists c, In c comps /\ 0 < fst c.
  Notation v2 := (sigma * sigma).
  Notation q := (positive_part comps).
  Notation smin := (mx_min_sens comps).
  Notation smax := (mx_max_sens comps).
  Notation rho := (rho sigma comps).
  Notation mloss := (mloss sigma comps).

  Lemma pos_in c : In c (pos_comps comps) <-> In c comps /\ 0 < fst c.
  Proof. unfold pos_comps. rewrite filter_In. destruct (Rltb_spec 0 (fst c)); intuition (try discriminate; try lra). Qed.
  Lemma q_pos : 0 < q.
  Proof.
    destruct some as (c & I & P). unfold positive_part. fold (pos_comps comps).
    assert (snd c <= rsum snd (pos_comps comps)). { apply (rsum_In_le snd); [intros c' I'; apply Rlt_le, ok, pos_in, I' | apply pos_in; split; assumption]. }
    destruct (ok c I). lra.
  Qed.
  Lemma q_le : q <= 1.
  Proof. unfold positive_part. rewrite <- total. apply rsum_filter_le. intros c I. apply Rlt_le, ok, I. Qed.
  Lemma prob_eq : mx_prob comps = q.
  Proof. unfold mx_prob. fold (positive_part comps). change (rsum snd (pos_comps comps)) with q. pose proof q_pos. pose proof q_le. rewrite Rmax_right, Rmin_right by lra. reflexivity. Qed.
  Lemma pos_nonempty : map fst (pos_comps comps) <> [].
  Proof. destruct some as (c & I & P). intros E. assert (K : In (fst c) (map fst (pos_comps comps))) by (apply in_map, pos_in; split; assumption). rewrite E in K. destruct K. Qed.
  Lemma sens_range : 0 < smin <= smax /\ (forall c, In c comps -> 0 < fst c -> smin <= fst c <= smax) /\ (exists c, In c comps /\ fst c = smin) /\ (exists c, In c comps /\ fst c = smax).
  Proof.
    destruct (np_min_spec _ pos_nonempty) as (I1 & M1). destruct (np_max_spec _ pos_nonempty) as (I2 & M2). fold smin in I1, M1. fold smax in I2, M2.
    pose proof I1 as I1'. pose proof I2 as I2'. apply in_map_iff in I1' as (c1 & E1 & J1). apply in_map_iff in I2' as (c2 & E2 & J2). apply pos_in in J1 as (J1 & P1). apply pos_in in J2 as (J2 & P2).
    repeat split.
    - lra.
    - apply M1, I2.
    - apply M1, in_map, pos_in. split; assumption.
    - apply M2, in_map, pos_in. split; assumption.
    - exists c1. split; assumption.
    - exists c2. split; assumption.
  Qed.
  Lemma smax_all c : In c comps -> fst c <= smax.
  Proof. intros I. destruct sens_range as (H & K & _). destruct (ok c I). destruct (Rle_lt_dec (fst c) 0); [lra|]. apply K; assumption. Qed.

  (** ** Where one sensitivity alone has a given likelihood ratio *)
  Definition place (s w : R) : R := - s / 2 - v2 * ln w / s.
  Definition et (s y : R) : R := exp (- (s * y + s * s / 2) / v2).
  Lemma v2_pos : 0 < v2. Proof. nra. Qed.
  Lemma et_place s w : 0 < s -> 0 < w -> et s (place s w) = w.
  Proof. intros H W. unfold et, place. replace (- (s * (- s / 2 - v2 * ln w / s) + s * s / 2) / v2) with (ln w) by (field; lra). apply exp_ln, W. Qed.
  Lemma et_mono s x y : 0 <= s -> x <= y -> et s y <= et s x.
  Proof. intros H K. apply exp_le, Rmult_le_compat_r; [apply Rlt_le, Rinv_0_lt_compat, v2_pos | nra]. Qed.
  Lemma rho_split y : rho y = (1 - q) + rsum (fun c => snd c * et (fst c) y) (pos_comps comps).
  Proof.
    unfold positive_part, pos_comps, ProofMixLaw.rho. rewrite !rsum_filter. rewrite <- total at 1. rewrite <- rsum_minus, <- rsum_plus. apply rsum_ext. intros c I. fold (et (fst c) y). change (term sigma y c) with (et (fst c) y).
    destruct (ok c I) as [S _]. destruct (Rltb_spec 0 (fst c)); [ring|]. assert (E : fst c = 0) by lra. unfold et. rewrite E. replace (- (0 * y + 0 * 0 / 2) / v2) with 0 by (field; lra). rewrite exp_0. ring.
  Qed.
  Lemma rho_ge y w : 0 < w -> y <= place smin w -> y <= place smax w -> (1 - q) + q * w <= rho y.
  Proof.
    intros W H1 H2. destruct sens_range as (S1 & S2 & _). rewrite rho_split. apply Rplus_le_compat_l. unfold positive_part. fold (pos_comps comps). rewrite <- rsum_scal_r. apply rsum_le. intros c I.
    pose proof I as J. apply pos_in in J as (J & P). apply Rmult_le_compat_l; [apply Rlt_le, ok, J|]. destruct (S2 c J P) as [A B].
    assert (E1 : w <= et smin y) by (rewrite <- (et_place smin w) by lra; apply et_mono; lra).
    assert (E2 : w <= et smax y) by (rewrite <- (et_place smax w) by lra; apply et_mono; lra).
    rewrite <- (exp_ln w W) in E1, E2. rewrite <- (exp_ln w W) at 1. unfold et in *. apply exp_le_inv2 in E1, E2. apply exp_le.
    assert (K : forall s, ln w <= - (s * y + s * s / 2) / v2 <-> ln w * v2 <= - (s * y + s * s / 2)).
    { intros s. pose proof v2_pos. split; intros G.
      - apply (Rmult_le_compat_r v2) in G; [|lra]. replace (- (s * y + s * s / 2) / v2 * v2) with (- (s * y + s * s / 2)) in G by (field; lra). exact G.
      - apply (Rmult_le_reg_r v2); [lra|]. replace (- (s * y + s * s / 2) / v2 * v2) with (- (s * y + s * s / 2)) by (field; lra). exact G. }
    rewrite K in *. set (s := fst c) in *. set (k := ln w * v2) in *. apply (concave_between smin smax); assumption || lra.
  Qed.
  Lemma et_less s y : smin <= s -> - smin / 2 <= y -> et s y <= et smin y.
  Proof. intros H K. destruct sens_range as (S1 & _). apply exp_le, Rmult_le_compat_r; [apply Rlt_le, Rinv_0_lt_compat, v2_pos|]. nra. Qed.
  Lemma rho_le y w : 0 < w -> place smin w <= y -> one_sensitivity comps \/ w <= 1 -> rho y <= (1 - q) + q * w.
  Proof.
    intros W H1 H2. destruct sens_range as (S1 & S2 & (c0 & I0 & E0) & _). rewrite rho_split. apply Rplus_le_compat_l. unfold positive_part. fold (pos_comps comps). rewrite <- rsum_scal_r. apply rsum_le. intros c I.
    apply pos_in in I as (J & P). apply Rmult_le_compat_l; [apply Rlt_le, ok, J|]. destruct (S2 c J P) as [A B].
    assert (E1 : et smin y <= w) by (rewrite <- (et_place smin w) by lra; apply et_mono; lra).
    destruct H2 as [O|L].
    - rewrite (O c c0 J I0 P ltac:(lra)), E0. exact E1.
    - eapply Rle_trans; [apply et_less; [exact A|] | exact E1]. eapply Rle_trans; [|exact H1]. unfold place.
      assert (ln w <= 0) by (rewrite <- ln_1; apply ln_le_mono; lra). assert (0 <= v2 * - ln w / smin) by (apply Rle_mult_inv_pos; [pose proof v2_pos; nra | lra]).
      replace (v2 * - ln w / smin) with (- (v2 * ln w / smin)) in * by (field; lra). lra.
  Qed.

  (** ** The bounds of the search *)
  Definition ratio_of (adj : adjacency) (l : R) : R := match adj with REMOVE => exp l | ADD => exp (- l) end.
  Definition weight (adj : adjacency) (l : R) : R := (ratio_of adj l - (1 - q)) / q.
  Definition possible (adj : adjacency) (l : R) : Prop := 1 - q < ratio_of adj l.
  Lemma weight_pos adj l : possible adj l -> 0 < weight adj l.
  Proof. intros H. apply Rdiv_lt_0_compat; [unfold possible in H; lra | apply q_pos]. Qed.
  Lemma weight_eq adj l : (1 - q) + q * weight adj l = ratio_of adj l.
  Proof. unfold weight. pose proof q_pos. field. lra. Qed.
  Lemma without_eq adj l : possible adj l -> without_sampling comps adj (Fin l) = Ok (Fin (match adj with REMOVE => ln (weight adj l) | ADD => - ln (weight adj l) end)).
  Proof.
    intros H. pose proof q_pos. pose proof (weight_pos adj l H) as W. unfold without_sampling, without_sampling_add. rewrite prob_eq.
    destruct adj; cbn [xneg]; unfold ratio_of, weight in *.
    - rewrite log_abc_pos; [|replace (1 / q * exp (- l) + (1 - 1 / q)) with ((exp (- l) - (1 - q)) / q) by (field; lra); exact W].
      cbn [bind xneg]. replace (1 / q * exp (- l) + (1 - 1 / q)) with ((exp (- l) - (1 - q)) / q) by (field; lra). reflexivity.
    - rewrite Ropp_involutive. rewrite log_abc_pos; [|replace (1 / q * exp l + (1 - 1 / q)) with ((exp l - (1 - q)) / q) by (field; lra); exact W].
      cbn [bind xneg]. rewrite Ropp_involutive. replace (1 / q * exp l + (1 - 1 / q)) with ((exp l - (1 - q)) / q) by (field; lra). reflexivity.
  Qed.
  Lemma bound_eq adj l s : 0 < s -> possible adj l -> finite_bound sigma comps adj l s = Ok (match adj with REMOVE => place s (weight adj l) | ADD => - place s (weight adj l) end).
  Proof.
    intros P H. unfold finite_bound. rewrite (without_eq adj l H). cbn [bind]. unfold single_inverse, place. destruct adj; cbn -[Rdiv]; unfold xdiv; cbn -[Rdiv]; rewrite ?(Reqb_false s 0) by lra; cbn -[Rdiv]; f_equal; field; lra.
  Qed.
  Lemma bounds_ok adj prec lo hi b : 0 < prec -> possible adj lo -> possible adj hi -> search_bounds sigma comps adj prec lo hi = Ok b ->
    one_sensitivity comps \/ match adj with REMOVE => lo <= 0 | ADD => 0 <= hi end ->
    fst b <= snd b /\ mloss adj (snd b) <= lo /\ hi <= mloss adj (fst b).
  Proof.
    intros Hp Plo Phi' Hb HO. destruct sens_range as (S1 & S2 & _). unfold search_bounds in Hb. rewrite !bound_eq in Hb by (try assumption; lra). cbn [bind] in Hb. match type of Hb with context [np_min ?L] => remember L as cand eqn:EC end. injection Hb as <-. cbn [fst snd].
    assert (NE : cand <> []) by (rewrite EC; discriminate).
    destruct (np_min_spec cand NE) as (_ & Mi). destruct (np_max_spec cand NE) as (_ & Ma).
    set (b0 := IZR (Rfloor (np_min cand / prec)) * prec). set (b1 := IZR (Rceil (np_max cand / prec)) * prec).
    assert (B0 : b0 <= np_min cand).
    { unfold b0. pose proof (Rfloor_spec (np_min cand / prec)) as [F _]. apply (Rmult_le_compat_r prec) in F; [|lra]. replace (np_min cand / prec * prec) with (np_min cand) in F by (field; lra). exact F. }
    assert (B1 : np_max cand <= b1).
    { unfold b1. pose proof (Rceil_spec (np_max cand / prec)) as [_ F]. apply (Rmult_le_compat_r prec) in F; [|lra]. replace (np_max cand / prec * prec) with (np_max cand) in F by (field; lra). exact F. }
    clearbody b0 b1. pose proof (weight_pos adj lo Plo) as Wl. pose proof (weight_pos adj hi Phi') as Wh.
    assert (PR : forall y, 0 < rho y) by (intros; apply rho_pos; assumption).
    assert (Mi' : forall x, In x cand -> b0 <= x) by (intros x I; pose proof (Mi x I); lra). assert (Ma' : forall x, In x cand -> x <= b1) by (intros x I; pose proof (Ma x I); lra).
    split; [pose proof (Mi' _ (proj1 (np_min_spec cand NE))); pose proof (Ma' _ (proj1 (np_min_spec cand NE))); lra|].
    clear B0 B1 Mi Ma NE. subst cand. destruct adj; cbn [ProofMixLaw.mloss].
    - (* ADD *)
      assert (A1 := Ma' _ (or_introl eq_refl)). assert (A2 := Ma' _ (or_intror (or_introl eq_refl))). assert (A3 := Mi' _ (or_intror (or_intror (or_introl eq_refl)))). split.
      + assert (G : exp (- lo) <= rho (- b1)). { change (exp (- lo)) with (ratio_of ADD lo). rewrite <- (weight_eq ADD lo). apply rho_ge; [exact Wl | lra | lra]. }
        apply ln_le_mono in G; [|apply exp_pos]. rewrite ln_exp in G. lra.
      + assert (G : rho (- b0) <= exp (- hi)).
        { change (exp (- hi)) with (ratio_of ADD hi). rewrite <- (weight_eq ADD hi). apply rho_le; [exact Wh | lra|]. destruct HO as [O|O]; [left; exact O | right]. unfold weight, ratio_of. pose proof q_pos.
          apply (Rmult_le_reg_r q); [lra|]. replace ((exp (- hi) - (1 - q)) / q * q) with (exp (- hi) - (1 - q)) by (field; lra). assert (exp (- hi) <= 1) by (rewrite <- exp_0; apply exp_le; lra). lra. }
        apply ln_le_mono in G; [|apply PR]. rewrite ln_exp in G. lra.
    - assert (A1 := Ma' _ (or_introl eq_refl)). assert (A3 := Mi' _ (or_intror (or_intror (or_introl eq_refl)))). assert (A4 := Mi' _ (or_intror (or_intror (or_intror (or_introl eq_refl))))). split.
      + assert (G : rho b1 <= exp lo).
        { change (exp lo) with (ratio_of REMOVE lo). rewrite <- (weight_eq REMOVE lo). apply rho_le; [exact Wl | lra|]. destruct HO as [O|O]; [left; exact O | right]. unfold weight, ratio_of. pose proof q_pos.
          apply (Rmult_le_reg_r q); [lra|]. replace ((exp lo - (1 - q)) / q * q) with (exp lo - (1 - q)) by (field; lra). assert (exp lo <= 1) by (rewrite <- exp_0; apply exp_le; lra). lra. }
        apply ln_le_mono in G; [|apply PR]. rewrite ln_exp in G. lra.
      + assert (G : exp hi <= rho b0). { change (exp hi) with (ratio_of REMOVE hi). rewrite <- (weight_eq REMOVE hi). apply rho_ge; [exact Wh | lra | lra]. }
        apply ln_le_mono in G; [|apply exp_pos]. rewrite ln_exp in G. lra.
  Qed.

  (** ** The search *)
  Lemma search_ok adj prec l fuel : 0 < prec -> forall b0 b1 x, mloss adj b1 <= l <= mloss adj b0 -> b0 <= b1 ->
    range_search sigma comps adj fuel prec l b0 b1 = Ok x ->
    exists c0 c1, c0 <= c1 <= c0 + prec /\ mloss adj c1 <= l <= mloss adj c0 /\ c1 - prec <= x <= c1.
  Proof.
    intros Hp. induction fuel as [|fuel IH]; intros b0 b1 x HL Hb; cbn [range_search]; destruct (Rleb_spec (b1 - b0) prec) as [D|D]; try discriminate.
    1,2: intros [= <-]; exists b0, b1; assert (b1 - prec <= IZR (Rfloor (b1 / prec)) * prec <= b1) by (apply floor_near, Hp); repeat split; lra.
    rewrite (mx_loss_eq sigma Hs comps ok total). destruct (Rltb_spec l (mloss adj ((b0 + b1) / 2))); apply IH; lra.
  Qed.
End Inv.
