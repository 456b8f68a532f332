(** How close the pessimistic estimates built by connect-the-dots are: at the multiples of the
    interval they are the exact divergence. *)
From Verif Require Import Base XReal Exn PyDict TypesAdjacency ModelPmf ModelPld ModelMake ModelMech SpecDP SpecPmf SpecPld SpecMech SpecMake SpecConstruct
  ProofDP ProofDict ProofPmf ProofPld ProofMake ProofDots ProofPeak ProofNoise ProofShape ProofShapeInt ProofBuckets.
Local Arguments Rltb : simpl never.
Local Arguments Rleb : simpl never.
Local Arguments Reqb : simpl never.

(** the estimate below a point, from the estimate at the point *)
Lemma delta_left p e e1 : proper p -> e <= e1 ->
  pmf_delta p (Fin e) <= 1 - exp (e - e1) * (1 - pmf_delta p (Fin e1)).
Proof.
  intros PR He. apply proper_total in PR. destruct PR as [W T]. unfold total in T.
  rewrite !pmf_delta_psum by assumption. unfold ptest.
  set (t := exp (e - e1)). assert (T0 : 0 < t) by apply exp_pos.
  assert (T1 : t <= 1) by (apply Rle_trans with (exp 0); [apply exp_le; lra | rewrite exp_0; lra]).
  assert (H : psum p (hgain (discretization p) e) <=
     psum p (fun k => (1 - t) * 1 + t * hgain (discretization p) e1 k)).
  { apply psum_le; [assumption|]. intros k. unfold hgain.
    replace (exp (e - IZR k * discretization p)) with (t * exp (e1 - IZR k * discretization p)).
    2:{ unfold t. rewrite <- exp_plus. f_equal. ring. }
    set (a := exp (e1 - IZR k * discretization p)). rewrite (pos_max (1 - t * a)), (pos_max (1 - a)). assert (0 < a) by apply exp_pos.
    pose proof (Rmax_l 0 (1 - a)) as M1. pose proof (Rmax_r 0 (1 - a)) as M2. apply Rmax_lub.
    - apply Rplus_le_le_0_compat; [lra | apply Rmult_le_pos; lra].
    - pose proof (Rmult_le_compat_l t _ _ (Rlt_le _ _ T0) M2). lra. }
  rewrite psum_plus, !psum_scal in H.
  set (I := psum p (hgain (discretization p) e)) in *. set (J := psum p (hgain (discretization p) e1)) in *.
  set (S1 := psum p (fun _ => 1)) in *. assert (E : infinity_mass p = 1 - S1) by lra. rewrite E. lra.
Qed.

Section Tight.
  Context (U L : R -> R) (HU : is_cdf U) (HL : is_cdf L) (pk : R -> xr).
  Hypothesis HP : forall eps, peaked (gap U L (exp eps)) (1 - exp eps) (pk eps).
  Notation ad := (ad U L).
  Context (disc : R) (Hd : 0 < disc).

  Definition in_gap (a b : Z) (y : xr) : Prop :=
    (forall l, IZR a * disc < l -> xleb (pk l) y = true) /\ xleb y (pk (IZR a * disc)) = true /\ xleb y (pk (IZR b * disc)) = true.
  Definition at_bottom (r : R) (a : Z) : Prop := exists x, xleb x (pk (IZR a * disc)) = true /\ 1 - at_end U x <= r.
  Definition at_top (r : R) (b : Z) : Prop := exists x, x <> NaN /\
    (forall l, IZR b * disc < l -> xleb (pk l) x = true) /\ (at_end U x <= r \/ at_end L x = 0).
  Definition reached (r : R) (eps : list Z) (z : Z) : Prop :=
    In z eps \/ (exists a b y, In a eps /\ In b eps /\ (a < z < b)%Z /\ in_gap a b y) \/
    (exists a, In a eps /\ (z < a)%Z /\ at_bottom r a) \/ (exists b, In b eps /\ (b < z)%Z /\ at_top r b).

  Lemma ad_best l x : x <> NaN -> ad l x <= ad l (pk l).
  Proof.
    intros Nx. unfold ProofBuckets.ad. rewrite !at_end_gap. destruct (HP l) as (N & I & D).
    destruct (xleb_total x (pk l) Nx N) as [H|H].
    - specialize (I x (pk l) H (xleb_refl _ N)). lra.
    - specialize (D (pk l) x (xleb_refl _ N) H). lra.
  Qed.
  Lemma ad_nonneg l : 0 <= ad l (pk l).
  Proof. pose proof (ad_best l MInf ltac:(discriminate)) as H. unfold ProofBuckets.ad in H at 1. cbn [at_end] in H. lra. Qed.
  Lemma ad_cut l x : (forall l', l < l' -> xleb (pk l') x = true) -> xleb x (pk l) = true -> ad l (pk l) <= ad l x.
  Proof.
    intros H1 H2. pose proof (cell_above U L HU HL pk HP x x l H1) as C. cbn [cell] in C. specialize (C _ H2).
    unfold ProofBuckets.ad. lra.
  Qed.
  Lemma end_01 F x : is_cdf F -> 0 <= at_end F x <= 1.
  Proof. intros HF. destruct HF as (B & _). destruct x; cbn; try lra. apply B. Qed.
  Lemma ad_top l x : x <> NaN -> (forall l', l < l' -> xleb (pk l') x = true) -> ad l (pk l) <= at_end U x.
  Proof.
    intros Nx H. pose proof (exp_pos l) as E. destruct (HP l) as (N & _). destruct (xleb_total x (pk l) Nx N) as [G|G].
    - pose proof (ad_cut l x H G) as C. unfold ProofBuckets.ad in C at 2. pose proof (end_01 L x HL) as B.
      pose proof (Rmult_le_pos _ _ (Rlt_le _ _ E) (proj1 B)). lra.
    - pose proof (at_end_mono U HU _ _ G) as M. unfold ProofBuckets.ad. pose proof (end_01 L (pk l) HL) as B.
      pose proof (Rmult_le_pos _ _ (Rlt_le _ _ E) (proj1 B)). lra.
  Qed.

  Context (h : R -> R) (PC : privacy_curve h) (Hh : forall e, h (exp e) = ad e (pk e)).
  Lemma dots_tight r eps p z : 0 <= r ->
    connect_dots disc eps (map (fun z => h (exp (IZR z * disc))) eps) = Ok p -> reached r eps z ->
    pmf_delta p (Fin (IZR z * disc)) <= h (exp (IZR z * disc)) + r.
  Proof.
    intros Hr HC HZ. destruct (dots_curve disc Hd eps p h PC HC) as (PR & EX & _). pose proof (proj1 PR) as W.
    destruct HZ as [HZ | [(a & b & y & Ha & Hb & Hz & G1 & G2 & G3) | [(a & Ha & Hz & x & Hx & Bx) | (b & Hb & Hz & x & Nx & Hx & Bx)]]].
    - rewrite EX by assumption. lra.
    - rewrite Hh. pose proof (EX a Ha) as XA'. pose proof (EX b Hb) as XB'. rewrite Hh in XA', XB'. set (ea := exp (IZR a * disc)). set (eb := exp (IZR b * disc)). set (ez := exp (IZR z * disc)).
      destruct Hz as [Z1 Z2]. apply IZR_lt in Z1, Z2.
      assert (LA : IZR a * disc < IZR z * disc) by (apply Rmult_lt_compat_r; assumption).
      assert (LB : IZR z * disc < IZR b * disc) by (apply Rmult_lt_compat_r; assumption).
      assert (XA : ea < ez) by (apply exp_increasing, LA). assert (XB : ez < eb) by (apply exp_increasing, LB).
      set (t := (eb - ez) / (eb - ea)).
      assert (T : 0 <= t <= 1).
      { unfold t. split; [apply Rlt_le, Rdiv_lt_0_compat; lra|]. apply (Rmult_le_reg_r (eb - ea)); [lra|].
        unfold Rdiv. rewrite Rmult_assoc, Rinv_l by lra. lra. }
      assert (ET : ez = t * ea + (1 - t) * eb) by (unfold t; field; lra).
      pose proof (delta_convex p t (IZR a * disc) (IZR b * disc) (IZR z * disc) W T ET) as CV.
      rewrite XA', XB' in CV.
      pose proof (ad_cut _ y G1 G2) as CA.
      assert (EY : y = pk (IZR b * disc)) by (apply xleb_antisym; [assumption | apply G1; lra]).
      rewrite <- EY in CV. eapply Rle_trans; [exact CV|].
      assert (Ny : y <> NaN) by (apply (xleb_nan _ _ G2)).
      pose proof (ad_best (IZR z * disc) y Ny) as BY.
      apply Rle_trans with (t * ad (IZR a * disc) y + (1 - t) * ad (IZR b * disc) y).
      + apply Rplus_le_compat_r, Rmult_le_compat_l; [apply T | assumption].
      + assert (EA : t * ad (IZR a * disc) y + (1 - t) * ad (IZR b * disc) y = ad (IZR z * disc) y); [|lra].
        unfold ProofBuckets.ad. fold ea eb ez. rewrite ET. ring.
    - apply IZR_lt in Hz. assert (LA : IZR z * disc < IZR a * disc) by (apply Rmult_lt_compat_r; assumption).
      pose proof (delta_left p (IZR z * disc) (IZR a * disc) PR (Rlt_le _ _ LA)) as B. rewrite (EX a Ha) in B.
      eapply Rle_trans; [exact B|]. rewrite !Hh. assert (Nx' : x <> NaN) by (apply (xleb_nan _ _ Hx)).
      pose proof (ad_best (IZR z * disc) x Nx') as BX. set (t := exp (IZR z * disc - IZR a * disc)).
      assert (ET : exp (IZR z * disc) = t * exp (IZR a * disc)) by (unfold t; rewrite <- exp_plus; f_equal; ring).
      assert (T0 : 0 < t) by apply exp_pos. pose proof (exp_pos (IZR a * disc)) as Ea.
      pose proof (end_01 U (pk (IZR a * disc)) HU) as BU. pose proof (at_end_mono L HL _ _ Hx) as ML.
      assert (K : exp (IZR a * disc) * at_end L x <= 1 - ad (IZR a * disc) (pk (IZR a * disc))).
      { unfold ProofBuckets.ad. pose proof (Rmult_le_compat_l _ _ _ (Rlt_le _ _ Ea) ML). lra. }
      apply (Rmult_le_compat_l t) in K; [|lra]. unfold ProofBuckets.ad in BX at 1. rewrite ET in BX at 1. lra.
    - apply IZR_lt in Hz. assert (LB : IZR b * disc < IZR z * disc) by (apply Rmult_lt_compat_r; assumption).
      pose proof (delta_monotone p (IZR b * disc) (IZR z * disc) W (Rlt_le _ _ LB)) as M. rewrite (EX b Hb) in M.
      eapply Rle_trans; [exact M|]. rewrite !Hh. pose proof (ad_top _ x Nx Hx) as TP. destruct Bx as [Bx|Bx].
      + pose proof (ad_nonneg (IZR z * disc)). lra.
      + pose proof (ad_best (IZR z * disc) x Nx) as BX. unfold ProofBuckets.ad in BX at 1. rewrite Bx in BX. lra.
  Qed.
End Tight.

(** the epsilons the construction for integer noise looks at *)
Section Points.
  Context (U L : R -> R) (pk : R -> xr) (disc : R) (Hd : 0 < disc) (m : monotone).
  Hypothesis HM : forall x y lx ly, privacy_loss m (Fin x) = Ok lx -> privacy_loss m (Fin y) = Ok ly -> x <= y -> xleb ly lx = true.
  Hypothesis HS : forall (x : Z) a l, privacy_loss m (Fin (IZR (x + 1))) = Ok (Fin a) -> a < l -> xleb (pk l) (Fin (IZR x)) = true.
  Hypothesis HW : forall (x : Z) a z, privacy_loss m (Fin (IZR x)) = Ok (Fin a) -> IZR z * disc <= a -> xleb (Fin (IZR x)) (pk (IZR z * disc)) = true.
  Context (r : R).
  Notation reached := (reached U L pk disc r).

  Lemma reached_incl l l' z : (forall k, In k l -> In k l') -> reached l z -> reached l' z.
  Proof.
    intros H [G | [(a & b & y & Ha & Hb & G) | [(a & Ha & G) | (b & Hb & G)]]].
    - left. apply H, G.
    - right; left. exists a, b, y. split; [apply H, Ha|]. split; [apply H, Hb | exact G].
    - right; right; left. exists a. split; [apply H, Ha | exact G].
    - right; right; right. exists b. split; [apply H, Hb | exact G].
  Qed.
  Lemma ceil_cases v : (Rceil v = Rfloor v \/ Rceil v = Rfloor v + 1)%Z.
  Proof.
    pose proof (Rceil_spec v) as C. pose proof (Rfloor_spec v) as G.
    assert (IZR (Rceil v) < IZR (Rfloor v + 2)) by (rewrite plus_IZR; lra).
    assert (IZR (Rfloor v) < IZR (Rceil v + 1)) by (rewrite plus_IZR; lra).
    apply lt_IZR in H, H0. lia.
  Qed.
  Lemma ceil_mono v w : v <= w -> (Rceil v <= Rceil w)%Z.
  Proof.
    intros H. pose proof (Rceil_spec v). pose proof (Rceil_spec w).
    assert (IZR (Rceil v) < IZR (Rceil w + 1)) by (rewrite plus_IZR; lra). apply lt_IZR in H2. lia.
  Qed.
  Lemma div_mul a : a / disc * disc = a.
  Proof. field. lra. Qed.
  Lemma div_mono a b : a <= b -> a / disc <= b / disc.
  Proof. intros H. apply Rmult_le_compat_r; [apply Rlt_le, Rinv_0_lt_compat, Hd | assumption]. Qed.
  Lemma ceil_above a : a <= IZR (Rceil (a / disc)) * disc.
  Proof. rewrite <- (div_mul a) at 1. apply Rmult_le_compat_r; [lra | apply Rceil_spec]. Qed.
  Lemma floor_below a : IZR (Rfloor (a / disc)) * disc <= a.
  Proof. rewrite <- (div_mul a) at 2. apply Rmult_le_compat_r; [lra | apply Rfloor_spec]. Qed.
  Lemma round_fin_eq b a : round_xr b (xdiv (Fin a) (Fin disc)) = Ok (round_fn b (a / disc)).
  Proof. cbn [xdiv]. rewrite Reqb_false by lra. reflexivity. Qed.

  Lemma points_reached n : forall x acc e ly eps, rounded_epsilons m disc x n (e :: acc) = Ok eps ->
    privacy_loss m (Fin (IZR (x + 1))) = Ok (Fin ly) -> e = Rceil (ly / disc) ->
    (forall z, (z <= e)%Z -> reached (e :: acc) z) ->
    exists e' a, In e' eps /\ (forall z, (z <= e')%Z -> reached eps z) /\
      privacy_loss m (Fin (IZR (x + 1 - Z.of_nat n))) = Ok (Fin a) /\ e' = Rceil (a / disc).
  Proof.
    induction n as [|n IH]; intros x acc e ly eps H Hl He HZ.
    - cbn [rounded_epsilons] in H. injection H as <-. exists e, ly. split; [apply (proj1 (in_rev (e :: acc) e)); left; reflexivity|].
      split; [intros z Hz; apply (reached_incl (e :: acc)); [intros k; apply (proj1 (in_rev (e :: acc) k)) | apply HZ, Hz]|].
      replace (x + 1 - Z.of_nat 0)%Z with (x + 1)%Z by lia. split; assumption.
    - cbn [rounded_epsilons] in H. apply bind_Ok in H. destruct H as (lx & Elx & H). apply bind_Ok in H. destruct H as (lo & Elo & H).
      apply bind_Ok in H. destruct H as (hi & Ehi & H).
      destruct (round_bound disc Hd _ _ _ Elo) as (a & -> & _). rewrite round_fin_eq in Elo, Ehi. cbn [round_fn] in Elo, Ehi.
      assert (lo = Rfloor (a / disc)) as -> by congruence. assert (hi = Rceil (a / disc)) as -> by congruence. clear Elo Ehi.
      pose proof (HM _ _ _ _ Elx Hl ltac:(apply IZR_le; lia)) as MO. apply xleb_fin in MO.
      pose proof (ceil_mono _ _ (div_mono _ _ MO)) as CM. rewrite <- He in CM. pose proof (ceil_cases (a / disc)) as CC.
      set (lo := Rfloor (a / disc)) in *. set (hi := Rceil (a / disc)) in *.
      assert (G : forall z, (e < z < lo)%Z -> in_gap pk disc e lo (Fin (IZR x))).
      { intros z Hz. assert (LX : IZR lo * disc <= a) by apply floor_below.
        assert (LY : ly <= IZR e * disc) by (rewrite He; apply ceil_above).
        split; [|split].
        - intros l Hl'. apply (HS x ly l Hl). lra.
        - apply (HW x a e Elx). eapply Rle_trans; [|exact LX]. apply Rmult_le_compat_r; [lra | apply IZR_le; lia].
        - apply (HW x a lo Elx LX). }
      replace (x + 1 - Z.of_nat (S n))%Z with (x - 1 + 1 - Z.of_nat n)%Z by lia.
      assert (KL : privacy_loss m (Fin (IZR (x - 1 + 1))) = Ok (Fin a)) by (replace (x - 1 + 1)%Z with x by lia; exact Elx).
      destruct (Z.ltb_spec e lo) as [E1|E1]; cbn beta iota in H.
      + assert (Z1 : forall z, (z <= lo)%Z -> reached (lo :: e :: acc) z).
        { intros z Hz. destruct (Z.eq_dec z lo) as [->|N1]; [left; left; reflexivity|]. destruct (Z_le_dec z e) as [Q|Q].
          - apply (reached_incl (e :: acc)); [intros k K; right; exact K | apply HZ, Q].
          - right; left. exists e, lo, (Fin (IZR x)). split; [right; left; reflexivity|]. split; [left; reflexivity|]. split; [lia|]. apply (G z). lia. }
        destruct (Z.ltb_spec lo hi) as [E2|E2].
        * apply (IH _ _ _ a _ H KL eq_refl). intros z Hz. destruct (Z.eq_dec z hi) as [->|N1]; [left; left; reflexivity|].
          apply (reached_incl (lo :: e :: acc)); [intros k K; right; exact K | apply Z1; lia].
        * apply (IH _ _ _ a _ H KL); [fold hi; lia | assumption].
      + destruct (Z.ltb_spec e hi) as [E2|E2].
        * apply (IH _ _ _ a _ H KL eq_refl). intros z Hz. destruct (Z.eq_dec z hi) as [->|N1]; [left; left; reflexivity|].
          apply (reached_incl (e :: acc)); [intros k K; right; exact K | apply HZ; lia].
        * apply (IH _ _ _ a _ H KL); [fold hi; lia | assumption].
  Qed.
  Lemma points_all lo up eps : (lo <= up)%Z -> rounded_epsilons m disc up (Z.to_nat (up - lo + 1)) [] = Ok eps ->
    (forall a k, privacy_loss m (Fin (IZR up)) = Ok (Fin a) -> IZR k * disc <= a -> at_bottom U pk disc r k) ->
    (forall a k, privacy_loss m (Fin (IZR lo)) = Ok (Fin a) -> a <= IZR k * disc -> at_top U L pk disc r k) ->
    forall z, reached eps z.
  Proof.
    intros Hlu H HB HT z. replace (Z.to_nat (up - lo + 1)) with (S (Z.to_nat (up - lo))) in H by lia.
    cbn [rounded_epsilons] in H. apply bind_Ok in H. destruct H as (lx & Elx & H). apply bind_Ok in H. destruct H as (f & Elo & H).
    apply bind_Ok in H. destruct H as (c & Ehi & H).
    destruct (round_bound disc Hd _ _ _ Elo) as (a & -> & _). rewrite round_fin_eq in Elo, Ehi. cbn [round_fn] in Elo, Ehi.
    assert (f = Rfloor (a / disc)) as -> by congruence. assert (c = Rceil (a / disc)) as -> by congruence. clear Elo Ehi.
    pose proof (ceil_cases (a / disc)) as CC. pose proof (floor_below a) as FB. set (f := Rfloor (a / disc)) in *. set (c := Rceil (a / disc)) in *.
    assert (Z1 : forall z, (z <= f)%Z -> reached [f] z).
    { intros k Hk. destruct (Z.eq_dec k f) as [->|N]; [left; left; reflexivity|]. right; right; left. exists f.
      split; [left; reflexivity|]. split; [lia|]. apply (HB a f Elx FB). }
    assert (KL : privacy_loss m (Fin (IZR (up - 1 + 1))) = Ok (Fin a)) by (replace (up - 1 + 1)%Z with up by lia; exact Elx).
    assert (K : exists e' b, In e' eps /\ (forall z, (z <= e')%Z -> reached eps z) /\
      privacy_loss m (Fin (IZR (up - 1 + 1 - Z.of_nat (Z.to_nat (up - lo))))) = Ok (Fin b) /\ e' = Rceil (b / disc)).
    { destruct (Z.ltb_spec f c) as [E2|E2].
      - apply (points_reached _ _ _ _ a _ H KL eq_refl). intros k Hk. fold c in Hk. destruct (Z.eq_dec k c) as [->|N]; [left; left; reflexivity|].
        apply (reached_incl [f]); [intros j J; right; exact J | apply Z1; lia].
      - apply (points_reached _ _ _ _ a _ H KL); [fold c; lia | assumption]. }
    destruct K as (e & b & Ie & Re & Eb & ->). replace (up - 1 + 1 - Z.of_nat (Z.to_nat (up - lo)))%Z with lo in Eb by lia.
    destruct (Z_le_dec z (Rceil (b / disc))) as [Q|Q]; [apply Re, Q|]. right; right; right. exists (Rceil (b / disc)).
    split; [assumption|]. split; [lia|]. apply (HT b _ Eb), ceil_above.
  Qed.
End Points.
