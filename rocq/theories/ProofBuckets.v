(** The privacy-buckets construction: the real line is cut into intervals, and the mass of an
    interval is counted at a bound of the privacy loss on it. *)
From Verif Require Import Base XReal Exn PyDict TypesAdjacency ModelPmf ModelPld ModelMake ModelMech SpecDP SpecPmf SpecPld SpecMech SpecConstruct
  ProofDP ProofDict ProofPmf ProofMake ProofPeak ProofNoise ProofShape ProofShapeInt.
Local Arguments Rltb : simpl never.
Local Arguments Rleb : simpl never.
Local Arguments Reqb : simpl never.

Lemma xltb_leb x y : x <> NaN -> y <> NaN -> xltb x y = negb (xleb y x).
Proof. destruct x, y; cbn; intros; try congruence; try reflexivity. destruct (Rltb_spec r r0), (Rleb_spec r0 r); try reflexivity; exfalso; lra. Qed.
Lemma xltb_le x y : xltb x y = true -> xleb x y = true.
Proof. destruct x, y; cbn; try discriminate; try reflexivity. destruct (Rltb_spec r r0); [|discriminate]. intros _. apply Rleb_true. lra. Qed.
Lemma xleb_antisym x y : xleb x y = true -> xleb y x = true -> x = y.
Proof. destruct x, y; cbn; try discriminate; try reflexivity. destruct (Rleb_spec r r0), (Rleb_spec r0 r); try discriminate. intros _ _. f_equal. lra. Qed.
Lemma xltb_nan x y : xltb x y = true -> x <> NaN /\ y <> NaN.
Proof. destruct x, y; cbn; try discriminate; split; discriminate. Qed.
Lemma round_half pess z : round_fn pess (IZR z + 1/2) = (if pess then z + 1 else z)%Z.
Proof.
  destruct pess; cbn [round_fn]; [apply Rceil_unique; rewrite plus_IZR; lra | apply Rfloor_unique; lra].
Qed.
Lemma nonneg_dadd d k v : NoDup (keys d) -> nonneg_dict d -> 0 <= v -> nonneg_dict (dadd d k v).
Proof. intros ND NN Hv. intros k'. rewrite <- dsum_ind by (apply NoDup_dadd, ND). rewrite dsum_dadd by assumption. rewrite dsum_ind by assumption.
  specialize (NN k'). unfold ind. destruct (Z.eqb _ _); lra. Qed.

Section Buckets.
  Context (U L : R -> R) (HU : is_cdf U) (HL : is_cdf L) (pk : R -> xr).
  Hypothesis HP : forall eps, peaked (gap U L (exp eps)) (1 - exp eps) (pk eps).
  Definition ad (eps : R) (x : xr) : R := at_end U x - exp eps * at_end L x.

  (** the part of the divergence in (x, y], and the value it is estimated by *)
  Definition part (eps : R) (x y : xr) : R := ad eps (cap (pk eps) y) - ad eps (cap (pk eps) x).
  Definition est (pess : bool) (eps : R) (x y : xr) (v : R) : Prop :=
    if pess then part eps x y <= v else v <= part eps x y.
  Lemma est_join pess eps x y z v w : est pess eps x y v -> est pess eps y z w -> est pess eps x z (v + w).
  Proof. destruct pess; cbn; unfold part; lra. Qed.
  Lemma est_same pess eps x : est pess eps x x 0.
  Proof. destruct pess; cbn; unfold part; lra. Qed.
  Lemma est_eq pess eps x y v w : est pess eps x y v -> v = w -> est pess eps x y w.
  Proof. intros H <-. exact H. Qed.
  Lemma pk_nan eps : pk eps <> NaN.
  Proof. apply (HP eps). Qed.
  Lemma part_pos eps x y : xleb x y = true -> pos (ad eps y - ad eps x) <= part eps x y.
  Proof. intros H. unfold part, ad. rewrite !at_end_gap. apply (peaked_pos _ _ _ (HP eps)), H. Qed.
  Lemma part_all eps : part eps MInf PInf = ad eps (pk eps).
  Proof. unfold part. destruct (cap_ends (pk eps) (pk_nan eps)) as [-> ->]. unfold ad. cbn. lra. Qed.
  Lemma cap_mono p x y : p <> NaN -> xleb x y = true -> xleb (cap p x) (cap p y) = true /\ xleb (cap p y) y = true.
  Proof.
    intros Np H. destruct (xleb_nan _ _ H) as [Nx Ny]. unfold cap. destruct (xleb y p) eqn:Ey.
    - rewrite (xleb_trans _ _ _ H Ey). split; [assumption | apply xleb_refl, Ny].
    - assert (E : xleb p y = true) by (destruct (xleb_total p y Np Ny) as [E|E]; [assumption | congruence]).
      split; [|assumption]. destruct (xleb x p) eqn:Ex; [assumption | apply xleb_refl, Np].
  Qed.

  (** a bound of the privacy loss on (x, y] *)
  Definition cell (pess : bool) (x y : xr) (l : R) : Prop :=
    if pess then forall b, xleb x b = true -> at_end U b - at_end U x <= exp l * (at_end L b - at_end L x)
    else exp l * (at_end L y - at_end L x) <= at_end U y - at_end U x.
  Lemma cell_est pess eps x y l : xleb x y = true -> cell pess x y l ->
    est pess eps x y ((at_end U y - at_end U x) * pos (1 - exp (eps - l))).
  Proof.
    intros H C. pose proof (exp_pos l) as E1. pose proof (exp_pos eps) as E2. pose proof (exp_pos (eps - l)) as E3.
    assert (EE : exp eps = exp (eps - l) * exp l) by (rewrite <- exp_plus; f_equal; lra).
    pose proof (at_end_mono U HU _ _ H) as MU. pose proof (at_end_mono L HL _ _ H) as ML.
    destruct pess; cbn [est cell] in *.
    - unfold part. destruct (cap_mono (pk eps) x y (pk_nan eps) H) as [H1 H2].
      set (y' := cap (pk eps) y) in *. set (x' := cap (pk eps) x) in *.
      assert (K : x' = x \/ y' = x').
      { unfold x', y', cap. destruct (xleb x (pk eps)) eqn:Ex; [left; reflexivity | right].
        destruct (xleb y (pk eps)) eqn:Ey; [|reflexivity]. rewrite (xleb_trans _ _ _ H Ey) in Ex. discriminate. }
      assert (PP : 0 <= (at_end U y - at_end U x) * pos (1 - exp (eps - l))).
      { apply Rmult_le_pos; [lra|]. rewrite pos_max. apply Rmax_l. }
      destruct K as [K|K]; [|rewrite K; unfold ad; lra]. rewrite K in *. unfold ad.
      specialize (C y' H1). pose proof (at_end_mono U HU _ _ H1) as MU1. pose proof (at_end_mono L HL _ _ H1) as ML1.
      pose proof (at_end_mono U HU _ _ H2) as MU2.
      set (u := at_end U y' - at_end U x) in *. set (w := at_end L y' - at_end L x) in *.
      replace (at_end U y' - exp eps * at_end L y' - (at_end U x - exp eps * at_end L x)) with (u - exp eps * w) by (unfold u, w; ring).
      assert (u <= at_end U y - at_end U x) by (unfold u; lra).
      assert (u - exp eps * w <= u * (1 - exp (eps - l))) by (rewrite EE; pose proof (Rmult_le_compat_l (exp (eps - l)) _ _ (Rlt_le _ _ E3) C); lra).
      rewrite pos_max. destruct (Rle_dec 0 (1 - exp (eps - l))) as [P|P].
      + rewrite Rmax_right by assumption. apply Rle_trans with (u * (1 - exp (eps - l))); [assumption|]. apply Rmult_le_compat_r; assumption.
      + rewrite Rmax_left by lra. rewrite Rmult_0_r. apply Rle_trans with (u * (1 - exp (eps - l))); [assumption|]. 
        assert (0 <= u * (exp (eps - l) - 1)) by (apply Rmult_le_pos; [unfold u; lra | lra]). lra.
    - apply Rle_trans with (pos (ad eps y - ad eps x)); [|apply part_pos, H]. unfold ad.
      set (u := at_end U y - at_end U x) in *. set (w := at_end L y - at_end L x) in *.
      replace (at_end U y - exp eps * at_end L y - (at_end U x - exp eps * at_end L x)) with (u - exp eps * w) by (unfold u, w; ring).
      rewrite (pos_max (1 - exp (eps - l))), (pos_max (u - exp eps * w)). pose proof (Rmax_r 0 (u - exp eps * w)). pose proof (Rmax_l 0 (u - exp eps * w)).
      assert (0 <= u) by (unfold u; lra). assert (0 <= w) by (unfold w; lra).
      destruct (Rle_dec 0 (1 - exp (eps - l))) as [P|P]; [rewrite (Rmax_right 0 (1 - exp (eps - l))) by assumption | rewrite (Rmax_left 0 (1 - exp (eps - l))) by lra; rewrite Rmult_0_r; apply Rmax_l].
      assert (u * (1 - exp (eps - l)) <= u - exp eps * w) by (rewrite EE; pose proof (Rmult_le_compat_l (exp (eps - l)) _ _ (Rlt_le _ _ E3) C); lra). lra.
  Qed.

  (** from the peaks *)
  Lemma cell_above x y l : (forall l', l < l' -> xleb (pk l') x = true) -> cell true x y l.
  Proof.
    intros H b Hb. pose proof (at_end_mono U HU _ _ Hb) as MU. pose proof (at_end_mono L HL _ _ Hb) as ML.
    set (u := at_end U b - at_end U x) in *. set (w := at_end L b - at_end L x) in *.
    assert (K : forall l', l < l' -> u <= exp l' * w).
    { intros l' Hl. destruct (HP l') as (_ & _ & D). specialize (D x b (H l' Hl) Hb). rewrite <- !at_end_gap in D. unfold u, w. lra. }
    assert (W0 : 0 <= w) by (unfold w; lra). destruct (Rle_dec u (exp l * w)) as [|N]; [assumption|]. exfalso.
    destruct (Req_dec w 0) as [Z|Z].
    - specialize (K (l + 1) ltac:(lra)). rewrite Z in *. lra.
    - assert (W : 0 < w) by lra. set (t := (exp l + u / w) / 2). pose proof (exp_pos l).
      assert (T1 : exp l < u / w) by (apply (Rmult_lt_reg_r w); [assumption|]; unfold Rdiv; rewrite Rmult_assoc, Rinv_l by lra; lra).
      assert (T : exp l < t) by (unfold t; lra). specialize (K (ln t)). rewrite exp_ln in K by lra.
      assert (l < ln t) by (rewrite <- (ln_exp l); apply ln_increasing; lra). specialize (K H1).
      assert (t < u / w) by (unfold t; lra). apply (Rmult_lt_compat_r w) in H2; [|assumption]. unfold Rdiv in H2. rewrite Rmult_assoc, Rinv_l in H2 by lra. lra.
  Qed.
  Lemma cell_below x y l : xleb x y = true -> xleb y (pk l) = true -> cell false x y l.
  Proof.
    intros H1 H2. destruct (HP l) as (_ & D & _). specialize (D x y H1 H2). rewrite <- !at_end_gap in D. cbn [cell]. lra.
  Qed.
  (** mass counted as infinite, and mass not counted *)
  Lemma est_inf eps x : x <> NaN -> est true eps MInf x (at_end U x).
  Proof.
    intros Nx. cbn [est]. unfold part. assert (M0 : xleb MInf x = true) by (destruct x; cbn; congruence).
    destruct (cap_mono (pk eps) MInf x (pk_nan eps) M0) as [H1 H2].
    destruct (cap_ends (pk eps) (pk_nan eps)) as [_ ->]. pose proof (at_end_mono U HU _ _ H2) as M. pose proof (at_end_mono L HL _ _ H1) as M1.
    unfold ad. cbn [at_end] in *. pose proof (exp_pos eps). assert (0 <= at_end L (cap (pk eps) x)). { destruct (cap (pk eps) x); cbn; try lra. apply HL. }
    nra.
  Qed.
  Lemma est_inf_below eps x : x <> NaN -> at_end L x = 0 -> est false eps MInf x (at_end U x).
  Proof.
    intros Nx Lx. cbn [est]. assert (M0 : xleb MInf x = true) by (destruct x; cbn; congruence).
    eapply Rle_trans; [|apply part_pos, M0]. unfold ad. rewrite Lx. cbn [at_end]. rewrite pos_max.
    eapply Rle_trans; [|apply Rmax_r]. lra.
  Qed.
  Lemma est_none (pess : bool) eps x y : xleb x y = true -> (if pess then at_end U y = at_end U x else True) -> est pess eps x y 0.
  Proof.
    intros H K. destruct pess; cbn [est].
    - assert (C : cell true x y 0 -> est true eps x y 0).
      { intros C. eapply est_eq; [apply (cell_est true eps x y 0 H C)|]. rewrite K. ring. }
      unfold part. destruct (cap_mono (pk eps) x y (pk_nan eps) H) as [H1 H2].
      assert (K' : cap (pk eps) x = x \/ cap (pk eps) y = cap (pk eps) x).
      { unfold cap. destruct (xleb x (pk eps)) eqn:Ex; [left; reflexivity | right].
        destruct (xleb y (pk eps)) eqn:Ey; [|reflexivity]. rewrite (xleb_trans _ _ _ H Ey) in Ex. discriminate. }
      destruct K' as [K'|K']; [|rewrite K'; lra]. rewrite K' in *. unfold ad.
      pose proof (at_end_mono U HU _ _ H2). pose proof (at_end_mono U HU _ _ H1). pose proof (at_end_mono L HL _ _ H1). pose proof (exp_pos eps). nra.
    - eapply Rle_trans; [|apply part_pos, H]. rewrite pos_max. apply Rmax_l.
  Qed.

  (** ** The loops *)
  Context (m : monotone) (disc : R) (Hd : 0 < disc) (clear : R -> Prop).
  Hypothesis Hmu : forall x, mu_upper_cdf m x = at_end U x.
  Hypothesis Hloss : forall x lx, privacy_loss m (Fin x) = Ok lx -> lx <> NaN.
  Hypothesis Hstrict : forall x lx l, privacy_loss m (Fin x) = Ok lx -> xltb lx (Fin l) = true -> xltb (pk l) (Fin x) = true.
  Hypothesis Hweak : forall x lx l, privacy_loss m (Fin x) = Ok lx -> xleb (Fin l) lx = true -> clear l -> xleb (Fin x) (pk l) = true.

  Lemma round_bound (pess : bool) lx k : round_xr pess (xdiv lx (Fin disc)) = Ok k ->
    exists a, lx = Fin a /\ (if pess then a <= IZR k * disc else IZR k * disc <= a) /\
      (pess = false -> a < IZR (k + 1) * disc).
  Proof.
    destruct lx as [a| | |]; cbn [xdiv]; [|destruct (Rltb disc 0); discriminate | destruct (Rltb disc 0); discriminate | discriminate].
    rewrite Reqb_false by lra. cbn [round_xr]. intros [= <-]. exists a. split; [reflexivity|].
    assert (E : a / disc * disc = a) by (field; lra).
    pose proof (Rceil_spec (a / disc)). pose proof (Rfloor_spec (a / disc)). split; [destruct pess; nra|].
    intros ->. rewrite plus_IZR. nra.
  Qed.

  (** everything to the right of x, and x itself, counted at a rounded loss of x *)
  Lemma cell_right x y lx k : privacy_loss m (Fin x) = Ok lx -> round_xr true (xdiv lx (Fin disc)) = Ok k ->
    cell true (Fin x) y (IZR k * disc).
  Proof.
    intros Hx Hk. destruct (round_bound _ _ _ Hk) as (a & -> & B & _). apply cell_above. intros l' Hl. apply xltb_le.
    apply (Hstrict _ _ _ Hx). cbn. apply Rltb_true. lra.
  Qed.
  Lemma cell_left x0 x lx k : (forall z, clear (IZR z * disc)) -> xleb x0 (Fin x) = true -> privacy_loss m (Fin x) = Ok lx -> round_xr false (xdiv lx (Fin disc)) = Ok k ->
    cell false x0 (Fin x) (IZR k * disc).
  Proof.
    intros Hclear H0 Hx Hk. destruct (round_bound _ _ _ Hk) as (a & -> & B & _). apply cell_below; [assumption|].
    apply (Hweak _ _ _ Hx); [|apply Hclear]. apply xleb_fin. assumption.
  Qed.
  (** the whole line counted at the largest (smallest) loss *)
  Lemma cell_all (pess : bool) (good : R -> Prop) l y (x0 : R) : good x0 ->
    (forall x, good x -> exists a, privacy_loss m (Fin x) = Ok (Fin a) /\ (if pess then a <= l else l <= a)) ->
    (forall l' a, pk l' = Fin a -> good a) -> (forall r, exists x, good x /\ r < x) -> (pess = false -> clear l) ->
    if pess then cell true MInf y l else xleb y PInf = true -> cell false y PInf l.
  Proof.
    intros G0 HG HI HR HC. destruct pess.
    - apply cell_above. intros l' Hl. destruct (pk l') as [a| | |] eqn:E; try reflexivity.
      + exfalso. destruct (HG a (HI _ _ E)) as (b & Hb & B). pose proof (Hstrict a _ l' Hb) as S. cbn in S. rewrite Rltb_true in S by lra.
        specialize (S eq_refl). rewrite E in S. cbn in S. rewrite Rltb_false in S by lra. discriminate.
      + exfalso. destruct (HG x0 G0) as (b & Hb & B). pose proof (Hstrict x0 _ l' Hb) as S. cbn in S. rewrite Rltb_true in S by lra.
        specialize (S eq_refl). rewrite E in S. discriminate.
      + destruct (pk_nan l' E).
    - intros Hy. apply cell_below; [assumption|]. assert (A : forall x, good x -> xleb (Fin x) (pk l) = true).
      { intros x G. destruct (HG x G) as (b & Hb & B). apply (Hweak _ _ _ Hb); [apply xleb_fin; assumption | apply HC; reflexivity]. }
      destruct (pk l) as [a| | |] eqn:E; try reflexivity.
      + exfalso. destruct (HR a) as (x & G & Lx). specialize (A x G). apply xleb_fin in A. lra.
      + specialize (A x0 G0). discriminate.
      + destruct (pk_nan l E).
  Qed.

  Definition fine (d : dict) : Prop := NoDup (keys d) /\ nonneg_dict d.
  Lemma fine_dadd d k v : fine d -> 0 <= v -> fine (dadd d k v).
  Proof. intros [ND NN] Hv. split; [apply NoDup_dadd, ND | apply nonneg_dadd; assumption]. Qed.
  Definition gains (pess : bool) (d d' : dict) (x y : xr) : Prop :=
    fine d' /\ forall eps, est pess eps x y (dsum d' (hgain disc eps) - dsum d (hgain disc eps)).
  Lemma gains_cell pess d k x y : fine d -> xleb x y = true -> cell pess x y (IZR k * disc) ->
    gains pess d (dadd d k (at_end U y - at_end U x)) x y.
  Proof.
    intros [ND NN] H C. pose proof (at_end_mono U HU _ _ H). split; [apply fine_dadd; [split; assumption | lra]|].
    intros eps. eapply est_eq; [apply (cell_est _ eps _ _ _ H C)|]. rewrite dsum_dadd by assumption. unfold hgain. ring.
  Qed.
  Lemma gains_join pess d1 d2 d3 x y z : gains pess d1 d2 x y -> gains pess d2 d3 y z -> gains pess d1 d3 x z.
  Proof.
    intros [_ G1] [F G2]. split; [assumption|]. intros eps. eapply est_eq; [apply (est_join _ _ _ _ _ _ _ (G1 eps) (G2 eps))|]. ring.
  Qed.

  Lemma point_masses_gains pess n : (pess = false -> forall z, clear (IZR z * disc)) -> forall x d d',
    (forall l a, pk l = Fin a -> a = IZR (Rfloor a)) -> fine d ->
    point_masses m pess disc x n d = Ok d' ->
    gains pess d d' (Fin (IZR (x - 1))) (Fin (IZR (x + Z.of_nat n - 1))).
  Proof.
    intros Hclear. induction n as [|n IH]; intros x d d' HI Hf; cbn [point_masses].
    - intros [= <-]. replace (x + Z.of_nat 0 - 1)%Z with (x - 1)%Z by lia. split; [assumption|]. intros eps.
      eapply est_eq; [apply est_same | ring].
    - destruct (privacy_loss m (Fin (IZR x))) as [lx|] eqn:Ex; cbn [bind]; [|discriminate].
      destruct (round_xr pess (xdiv lx (Fin disc))) as [k|] eqn:Ek; cbn [bind]; [|discriminate]. rewrite !Hmu. intros H.
      assert (O : xleb (Fin (IZR (x - 1))) (Fin (IZR x)) = true) by (apply xleb_fin, IZR_le; lia).
      assert (C : cell pess (Fin (IZR (x - 1))) (Fin (IZR x)) (IZR k * disc)).
      { destruct pess; [|apply (cell_left _ _ _ _ (Hclear eq_refl) O Ex Ek)].
        destruct (round_bound _ _ _ Ek) as (a & -> & B & _). apply cell_above. intros l' Hl.
        pose proof (Hstrict _ _ l' Ex) as S. cbn in S. rewrite Rltb_true in S by lra. specialize (S eq_refl).
        destruct (pk l') as [p| | |] eqn:E; cbn in S; try discriminate; [|reflexivity].
        revert S. destruct (Rltb_spec p (IZR x)) as [S|]; [|discriminate]. intros _. rewrite (HI _ _ E) in S |- *.
        apply xleb_fin, IZR_le. apply lt_IZR in S. lia. }
      pose proof (gains_cell pess d k _ _ Hf O C) as G. pose proof (IH (x + 1)%Z _ d' HI (proj1 G) H) as G2.
      replace (x + 1 - 1)%Z with x in G2 by lia. replace (x + 1 + Z.of_nat n - 1)%Z with (x + Z.of_nat (S n) - 1)%Z in G2 by lia.
      apply (gains_join _ _ _ _ _ _ _ G G2).
  Qed.

  Hypothesis Hinverse : forall l p, inverse_privacy_loss m (Fin l) = Ok p -> clear l -> p = pk l.
  Lemma interval_masses_gains pess upper ul : (forall z, clear (IZR z * disc)) -> (forall x, exists a, privacy_loss m (Fin x) = Ok (Fin a)) ->
    privacy_loss m (Fin upper) = Ok ul ->
    forall fuel x down d d', fine d -> xleb x (Fin upper) = true -> 
    xleb (pk (disc * IZR (down + 1))) x = true -> xleb x (pk (disc * IZR down)) = true ->
    interval_masses fuel m pess disc upper ul x down d = Ok d' -> gains pess d d' x (Fin upper).
  Proof.
    intros Hclear HT Hu. assert (CD : forall z, clear (disc * IZR z)) by (intros z; rewrite Rmult_comm; apply Hclear).
    assert (MONO : forall z, xleb (pk (disc * IZR z)) (pk (disc * IZR (z - 1))) = true).
    { intros z. assert (K : forall r, xleb (Fin r) (pk (disc * IZR z)) = true -> xleb (Fin r) (pk (disc * IZR (z - 1))) = true).
      { intros r Hr. destruct (HT r) as (a & Ha). apply (Hweak _ _ _ Ha); [|apply CD]. apply xleb_fin.
        destruct (Rle_lt_dec (disc * IZR z) a) as [Ok1|Lt]; [rewrite minus_IZR; lra|]. exfalso.
        pose proof (Hstrict _ _ (disc * IZR z) Ha) as S. cbn in S. rewrite Rltb_true in S by assumption. specialize (S eq_refl).
        rewrite xltb_leb, Hr in S by (apply pk_nan || discriminate). discriminate. }
      pose proof (pk_nan (disc * IZR z)) as N1. pose proof (pk_nan (disc * IZR (z - 1))) as N2.
      destruct (pk (disc * IZR z)) as [a| | |], (pk (disc * IZR (z - 1))) as [b| | |]; try congruence; try reflexivity.
      - apply K. apply xleb_fin. lra.
      - specialize (K a). cbn in K. rewrite Rleb_true in K by lra. specialize (K eq_refl). discriminate.
      - specialize (K (b + 1)). cbn in K. specialize (K eq_refl). revert K. destruct (Rleb_spec (b + 1) b); [exfalso; lra | discriminate].
      - specialize (K 0 eq_refl). discriminate. }
    induction fuel as [|fuel IH]; intros x down d d' Hf Hx H1 H2; cbn [interval_masses];
      destruct (xltb x (Fin upper)) eqn:Lx; try discriminate.
    1, 3: intros [= <-]; assert (x = Fin upper) as -> by
        (apply xleb_antisym; [assumption|]; destruct (xleb_nan _ _ Hx) as [Nx _]; rewrite xltb_leb in Lx by (assumption || discriminate);
         destruct (xleb (Fin upper) x); [reflexivity | discriminate]);
      split; [assumption|]; intros eps; eapply est_eq; [apply est_same | ring].
    rewrite round_half. destruct (xleb (Fin (disc * IZR down)) ul) eqn:Eu.
    - cbn [bind]. rewrite !Hmu. intros H.
      assert (G : gains pess d (dadd d (if pess then down + 1 else down)%Z (at_end U (Fin upper) - at_end U x)) x (Fin upper)).
      { apply gains_cell; [assumption | assumption|]. destruct pess.
        - apply cell_above. intros l' Hl. rewrite Rmult_comm in Hl.
          destruct (xleb_nan _ _ Hx) as [Nx _]. destruct (xleb_total (pk l') x (pk_nan l') Nx) as [|T]; [assumption|].
          assert (K : forall r, xleb (Fin r) (pk l') = true -> xleb (Fin r) (pk (disc * IZR (down + 1))) = true).
          { intros r Hr. destruct (HT r) as (a & Ha). apply (Hweak _ _ _ Ha); [|apply CD]. apply xleb_fin.
            destruct (Rle_lt_dec l' a) as [Ok1|Lt]; [lra|]. exfalso.
            pose proof (Hstrict _ _ l' Ha) as S. cbn in S. rewrite Rltb_true in S by assumption. specialize (S eq_refl).
            rewrite xltb_leb, Hr in S by (apply pk_nan || discriminate). discriminate. }
          destruct (pk l') as [a| | |] eqn:El; try (destruct (pk_nan l' El)).
          + apply (xleb_trans _ (pk (disc * IZR (down + 1)))); [|assumption]. apply K. apply xleb_fin. lra.
          + destruct x as [r| | |]; try discriminate.
            * specialize (K (r + 1) eq_refl). pose proof (xleb_trans _ _ _ K H1) as X. apply xleb_fin in X. exfalso. lra.
            * specialize (K 0 eq_refl). destruct (pk (disc * IZR (down + 1))); discriminate.
          + destruct x; try discriminate; reflexivity.
        - apply cell_below; [assumption|]. rewrite Rmult_comm. apply (Hweak _ _ _ Hu Eu), CD. }
      apply (gains_join _ _ _ _ _ _ _ G).
      destruct fuel; cbn [interval_masses] in H; cbn [xltb] in H; rewrite Rltb_false in H by lra; injection H as <-;
        (split; [apply G|]; intros eps; eapply est_eq; [apply est_same | symmetry; apply Rminus_diag_eq; reflexivity]).
    - destruct (inverse_privacy_loss m (Fin (disc * IZR down))) as [x'|] eqn:Ei; cbn [bind]; [|discriminate].
      rewrite !Hmu. rewrite (Hinverse _ _ Ei (CD down)). intros H.
      assert (LT : xltb (pk (disc * IZR down)) (Fin upper) = true).
      { apply (Hstrict _ _ _ Hu). rewrite xltb_leb, Eu by (apply (Hloss _ _ Hu) || discriminate). reflexivity. }
      assert (G : gains pess d (dadd d (if pess then down + 1 else down)%Z (at_end U (pk (disc * IZR down)) - at_end U x)) x (pk (disc * IZR down))).
      { apply gains_cell; [assumption | assumption|]. destruct pess.
        - intros b Hb. destruct (HP (IZR (down + 1) * disc)) as (_ & _ & D). rewrite Rmult_comm in D.
          specialize (D x b H1 Hb). rewrite <- !at_end_gap in D. rewrite (Rmult_comm (IZR _)). lra.
        - apply cell_below; [assumption|]. rewrite Rmult_comm. apply xleb_refl, pk_nan. }
      apply (gains_join _ _ _ _ _ _ _ G). apply (IH _ (down - 1)%Z _ _ (proj1 G)); [apply xltb_le, LT | | apply MONO | exact H].
      replace (down - 1 + 1)%Z with down by lia. apply xleb_refl, pk_nan.
  Qed.
End Buckets.
