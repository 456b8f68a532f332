(** Bounds from above on the delta at epsilon = 0 that the accounting reports. *)
From Verif Require Import Base XReal Exn PyDict TypesAdjacency ModelPmf ModelPld ModelMake ModelSearch ModelMech ModelNoise
  SpecDP SpecPmf SpecPld SpecMake SpecMech SpecClasses SpecConstruct
  ProofDP ProofDict ProofPmf ProofCompose ProofConv ProofCompose2 ProofPld ProofSelf ProofParams ProofDots
  ProofPeak ProofNoise ProofShape ProofShapeGauss ProofAdditive ProofClasses ProofMechTop
  ProofTails ProofTailClasses ProofDotsMech ProofConstruct ProofConstructTotal ProofConstructEx ProofFindNoise ProofFindTotal.
Local Arguments Rltb : simpl never.
Local Arguments Rleb : simpl never.
Local Arguments Reqb : simpl never.

Definition tv (p : pmf) : R := pmf_delta p (Fin 0).
Lemma gain_sub disc i j : 0 < disc -> hgain disc 0 (i + j) <= hgain disc 0 i + hgain disc 0 j.
Proof.
  intros Hd. unfold hgain. rewrite plus_IZR.
  set (x := exp (0 - IZR i * disc)). set (y := exp (0 - IZR j * disc)).
  replace (exp (0 - (IZR i + IZR j) * disc)) with (x * y) by (unfold x, y; rewrite <- exp_plus; f_equal; ring).
  assert (0 < x) by apply exp_pos. assert (0 < y) by apply exp_pos.
  clearbody x y. unfold pos. destruct (Rle_dec x 1), (Rle_dec y 1).
  - rewrite (Rmax_right 0 (1 - x)), (Rmax_right 0 (1 - y)) by lra. apply Rmax_lub; nra.
  - rewrite (Rmax_right 0 (1 - x)), (Rmax_left 0 (1 - y)) by lra. apply Rmax_lub; nra.
  - rewrite (Rmax_left 0 (1 - x)), (Rmax_right 0 (1 - y)) by lra. apply Rmax_lub; nra.
  - rewrite (Rmax_left 0 (1 - x)), (Rmax_left 0 (1 - y)) by lra. apply Rmax_lub; nra.
Qed.

Lemma gain_01 disc e k : 0 <= hgain disc e k <= 1.
Proof. split; [apply hgain_nonneg | apply hgain_le_1]. Qed.
Lemma tv_psum p : wf p -> tv p = psum p (hgain (discretization p) 0) + infinity_mass p.
Proof. intros W. unfold tv. rewrite pmf_delta_psum by assumption. unfold ptest. ring. Qed.

(** Composition. *)
Lemma tv_compose p q t tail r : wf p -> wf q -> infinity_mass p <= 1 -> 0 <= t -> psum p (fun _ => 1) <= 1 + t -> psum q (fun _ => 1) <= 1 + t ->
  pessimistic_estimate p = true -> 0 <= tail -> compose_pmfs p q tail = Ok r ->
  tv r <= (1 + t) * (tv p + tv q) + tail /\ wf r /\ discretization r = discretization p /\ pessimistic_estimate r = true /\
  total r = psum p (fun _ => 1) * psum q (fun _ => 1) + combine_inf (infinity_mass p) (infinity_mass q).
Proof.
  intros Wp Wq Ip T Mp Mq PE Ht H. apply compose_pmfs_ok in H; [|assumption..]. assert (W := compose_wf _ _ _ _ Wp Wq (or_introl Ip) H).
  destruct (co_pes _ _ _ _ H PE) as [TO M]. pose proof (co_rdisc _ _ _ _ H) as RD. pose proof (co_disc _ _ _ _ H) as QD.
  pose proof Wp as (Hd & I0 & _). pose proof Wq as (_ & J0 & _).
  set (d := discretization p) in *. specialize (M (hgain d 0) 1). destruct M as [_ M]; [unfold mono; apply hgain_mono, Hd | apply gain_01|]. specialize (M Ht).
  assert (C1 : conv2 p q (fun _ => 1) = psum p (fun _ => 1) * psum q (fun _ => 1)).
  { unfold conv2. rewrite (psum_ext p _ (fun i => psum q (fun _ => 1) * 1)) by (intros; ring). rewrite psum_scal. ring. }
  split; [|split; [exact W|]; split; [exact RD|]; split; [rewrite (co_rpess _ _ _ _ H); exact PE | rewrite <- TO, C1; reflexivity]].
  rewrite !tv_psum by assumption. rewrite RD, QD. fold d. unfold ptest in M.
  assert (CV : conv2 p q (hgain d 0) <= psum p (hgain d 0) * psum q (fun _ => 1) + psum p (fun _ => 1) * psum q (hgain d 0)).
  { unfold conv2. eapply Rle_trans; [apply (psum_le p _ (fun i => psum q (fun _ => 1) * hgain d 0 i + psum q (hgain d 0) * 1)); [exact Wp|]|].
    - intros i. rewrite <- (psum_scal q (hgain d 0 i) (fun _ => 1)) || idtac.
      replace (psum q (fun _ => 1) * hgain d 0 i + psum q (hgain d 0) * 1) with (psum q (fun j => hgain d 0 i * 1 + hgain d 0 j)) by (rewrite psum_plus, psum_scal; ring).
      apply psum_le; [exact Wq|]. intros j. rewrite Rmult_1_r. apply gain_sub, Hd.
    - rewrite psum_plus, !psum_scal. lra. }
  assert (Gp : 0 <= psum p (hgain d 0)) by (apply psum_nonneg; [exact Wp | intros; apply gain_01]).
  assert (Gq : 0 <= psum q (hgain d 0)) by (apply psum_nonneg; [exact Wq | intros; apply gain_01]).
  unfold combine_inf in *. assert (0 <= infinity_mass p * infinity_mass q) by (apply Rmult_le_pos; assumption).
  assert (psum p (hgain d 0) * psum q (fun _ => 1) <= psum p (hgain d 0) * (1 + t)) by (apply Rmult_le_compat_l; assumption).
  assert (psum p (fun _ => 1) * psum q (hgain d 0) <= (1 + t) * psum q (hgain d 0)) by (apply Rmult_le_compat_r; assumption).
  nra.
Qed.

(** Composition with itself. *)
Lemma pown_gain p n : wf p -> psum p (fun _ => 1) <= 1 ->
  forall i, pown p n (fun j => hgain (discretization p) 0 (i + j)) <= hgain (discretization p) 0 i + INR n * psum p (hgain (discretization p) 0).
Proof.
  intros W M. set (d := discretization p). pose proof (proj1 W) as Hd. fold d in Hd.
  assert (G : 0 <= psum p (hgain d 0)) by (apply psum_nonneg; [exact W | intros; apply gain_01]).
  induction n as [|n IH]; intros i; [cbn; rewrite Z.add_0_r; lra|]. cbn [pown].
  eapply Rle_trans; [apply (psum_le p _ (fun k => (hgain d 0 i + INR n * psum p (hgain d 0)) * 1 + hgain d 0 k)); [exact W|]|].
  - intros k. rewrite (pown_ext p n _ (fun j => hgain d 0 ((i + k) + j))) by (intros; f_equal; lia). eapply Rle_trans; [apply IH|].
    pose proof (gain_sub d i k Hd). lra.
  - rewrite psum_plus, psum_scal. rewrite S_INR. pose proof (gain_01 d 0 i). pose proof (pos_INR n).
    assert (0 <= INR n * psum p (hgain d 0)) by (apply Rmult_le_pos; assumption). nra.
Qed.
Lemma tv_self fast_len p n tail r : (forall k, (k <= fast_len k)%nat) -> wf p -> total p = 1 -> pessimistic_estimate p = true -> 0 <= tail -> (1 <= n)%Z ->
  pmf_self_compose fast_len p n tail = Ok r ->
  tv r <= IZR n * tv p + 2 * tail /\ wf r /\ discretization r = discretization p /\ pessimistic_estimate r = true /\ 1 <= total r <= 1 + 2 * tail.
Proof.
  intros Hf W T PE Ht Hn H. pose proof W as (Hd & I0 & _).
  assert (Gm : 0 <= psum p (fun _ => 1)) by (apply psum_nonneg; [exact W | intros; lra]). unfold total in T.
  apply self_compose_ok in H; try assumption; [|lra]. pose proof (so_wf _ _ _ _ H) as Wr.
  split; [|split; [exact Wr|]; split; [apply (so_disc _ _ _ _ H)|]; split; [rewrite (so_pess _ _ _ _ H); exact PE|]].
  - rewrite !tv_psum by assumption. rewrite (so_disc _ _ _ _ H). set (d := discretization p) in *.
    destruct (so_up _ _ _ _ H PE (hgain d 0) 1) as [_ U]; [unfold mono; apply hgain_mono, Hd | apply gain_01|]. unfold ptest in U.
    pose proof (pown_gain p (Z.to_nat n) W ltac:(lra) 0%Z) as G. fold d in G. rewrite (pown_ext p _ _ (hgain d 0)) in G by (intros; reflexivity).
    assert (Z0 : hgain d 0 0 = 0) by (unfold hgain, pos; rewrite Rmult_0_l, Rminus_0_r, exp_0; apply Rmax_left; lra). rewrite Z0 in G.
    rewrite INR_IZR_INZ, Z2Nat.id in G by lia.
    assert (B : 1 - (1 - infinity_mass p) ^ Z.to_nat n <= IZR n * infinity_mass p).
    { assert (E : forall k, 1 - INR k * infinity_mass p <= (1 - infinity_mass p) ^ k).
      { induction k as [|k IH]; [cbn; lra|]. rewrite S_INR. cbn [pow]. pose proof (pos_INR k).
        assert (0 <= INR k * (infinity_mass p * infinity_mass p)) by (apply Rmult_le_pos; nra).
        apply Rle_trans with ((1 - infinity_mass p) * (1 - INR k * infinity_mass p)); [nra | apply Rmult_le_compat_l; lra]. }
      specialize (E (Z.to_nat n)). rewrite INR_IZR_INZ, Z2Nat.id in E by lia. lra. }
    lra.
  - destruct (so_up _ _ _ _ H PE (fun _ => 1) 1) as [L U]; [intros ? ? ?; lra | intros; lra|]. unfold ptest in L, U. unfold total.
    rewrite pown_one in L, U. replace (1 - infinity_mass p) with (psum p (fun _ => 1)) in L, U by lra. lra.
Qed.

(** ** The constructors *)
Lemma tv_dots m ok F f s disc p u l : 0 < disc -> additive_noise m ok F f s 1 REMOVE -> is_discrete m = false ->
  connect_dots_bounds m = Ok (EpsilonBounds (Fin u) (Fin l)) -> l <= 0 <= u -> dots_pmf m disc = Ok p ->
  proper p /\ pessimistic_estimate p = true /\ discretization p = disc /\ exists x, tv p = at_end (fun y => F (y + s)) x - at_end F x.
Proof.
  intros Hd HA ED EB Hul H. unfold dots_pmf in H. rewrite ED, EB in H. cbn [bind xdiv] in H. rewrite Reqb_false in H by lra. cbn [round_xr bind] in H.
  set (k := Rceil (u / disc)) in *. set (k0 := Rfloor (l / disc)) in *.
  destruct (deltas_total m ok F f s 1 REMOVE HA disc (grid_clear_1 disc REMOVE)) as (h & PC & HT). rewrite HT in H. cbn [bind] in H.
  rewrite fixed_gap_eq in H by assumption.
  assert (Iz : In 0%Z (zrange k0 (Z.to_nat (k - k0 + 1)))).
  { pose proof (Rceil_spec (u / disc)) as C. pose proof (Rfloor_spec (l / disc)) as Fl. fold k in C. fold k0 in Fl.
    assert (0 <= u / disc) by (apply Rmult_le_pos; [lra | left; apply Rinv_0_lt_compat, Hd]).
    assert (l / disc <= 0). { unfold Rdiv. assert (0 < / disc) by (apply Rinv_0_lt_compat, Hd). nra. }
    assert (0 <= k)%Z by (apply le_IZR; lra). assert (k0 <= 0)%Z by (apply le_IZR; lra). apply zrange_in. lia. }
  destruct (dots_ok disc Hd _ _ _ H) as (_ & _ & _ & _ & _ & _ & PE & DI & _).
  destruct (dots_curve disc Hd _ p h PC H) as (PR & EX & _). split; [exact PR|]. split; [exact PE|]. split; [exact DI|].
  specialize (EX 0%Z Iz). rewrite Rmult_0_l in EX.
  pose proof (deltas_at_in m disc [0%Z] [h (exp (IZR 0 * disc))] 0 (h (exp (IZR 0 * disc))) (HT [0%Z]) (or_introl eq_refl)) as K. rewrite Rmult_0_l in K.
  destruct (additive_instance _ _ _ _ _ _ _ HA) as [Hq Hs Ho Hf (pk & cdf & loss0 & inv0 & pt & L & dd & tail & bounds & E & HF & HL & HR & HD)].
  rewrite E in K. cbn [additive get_delta_for_epsilon] in K. rewrite (get_delta_exact _ _ _ _ _ HF 1 Hq REMOVE 0) in K by (intros [X _]; lra). injection K as K.
  exists (peak REMOVE 1 s pk 0). unfold tv. rewrite EX, <- K. unfold delta_at. rewrite exp_0, Rmult_1_l. cbn [upper_law lower_law].
  unfold remove_upper. rewrite at_end_sampled. cbn [peak]. ring.
Qed.

Lemma laplace_step b s x : 0 < b -> 0 < s -> at_end (fun y => laplace_law b (y + s)) x - at_end (laplace_law b) x <= 1 - exp (- (s / (2 * b))).
Proof.
  intros Hb Hs. assert (U : 0 < exp (- (s / (2 * b))) <= 1).
  { split; [apply exp_pos|]. rewrite <- exp_0. apply exp_le. assert (0 < s / (2 * b)) by (apply Rdiv_lt_0_compat; lra). lra. }
  destruct x as [x| | |]; cbn [at_end]; try lra. unfold laplace_law.
  set (u := exp (- (s / (2 * b)))) in *.
  assert (SQ : exp (- s / b) = u * u) by (unfold u; rewrite <- exp_plus; f_equal; field; lra).
  destruct (Rltb_spec (x + s) 0) as [A|A], (Rltb_spec x 0) as [B|B]; try lra.
  - replace (exp (x / b)) with (exp ((x + s) / b) * (u * u)) by (rewrite <- SQ, <- exp_plus; f_equal; field; lra).
    assert (0 < exp ((x + s) / b) <= 1). { split; [apply exp_pos|]. rewrite <- exp_0. apply exp_le. unfold Rdiv. assert (0 < / b) by (apply Rinv_0_lt_compat, Hb). nra. }
    set (e := exp ((x + s) / b)) in *. assert (0 <= 1 - u * u) by nra. assert (e * (1 - u * u) <= 1 * (1 - u * u)) by (apply Rmult_le_compat_r; lra). nra.
  - assert (P : exp (- (x + s) / b) * exp (x / b) = u * u) by (rewrite <- SQ, <- exp_plus; f_equal; field; lra).
    pose proof (exp_pos (- (x + s) / b)). pose proof (exp_pos (x / b)). set (e := exp (- (x + s) / b)) in *. set (g := exp (x / b)) in *.
    assert (2 * u <= e + g); [|lra]. apply Rnot_lt_le. intros C. assert ((e + g) * (e + g) < 4 * (u * u)) by nra. pose proof (Rle_0_sqr (e - g)). unfold Rsqr in *. nra.
  - replace (exp (- (x + s) / b)) with (exp (- x / b) * (u * u)) by (rewrite <- SQ, <- exp_plus; f_equal; field; lra).
    assert (0 < exp (- x / b) <= 1). { split; [apply exp_pos|]. rewrite <- exp_0. apply exp_le. unfold Rdiv. assert (0 < / b) by (apply Rinv_0_lt_compat, Hb). nra. }
    set (e := exp (- x / b)) in *. assert (0 <= 1 - u * u) by nra. assert (e * (1 - u * u) <= 1 * (1 - u * u)) by (apply Rmult_le_compat_r; lra). nra.
Qed.
Lemma normal_lip Phi x y : normal_cdf Phi -> x <= y -> Phi y - Phi x <= 2 * (y - x).
Proof.
  intros ((B & _) & c & Hc & D) L.
  assert (M : forall a b, a < b -> exists z, a < z < b /\ Phi b - Phi a = c * exp (- (z * z) / 2) * (b - a)).
  { intros a b Hab. destruct (MVT_cor2 Phi (fun z => c * exp (- (z * z) / 2)) a b Hab) as (z & E & Hz); [intros; apply D | exists z; split; [exact Hz | exact E]]. }
  assert (C2 : c <= 2).
  { destruct (M 0 1 ltac:(lra)) as (z & Hz & E). pose proof (B 0). pose proof (B 1).
    assert (1/2 <= exp (- (z * z) / 2)). { pose proof (exp_ineq1_le (- (z * z) / 2)). nra. } nra. }
  destruct L as [L| ->]; [|lra]. destruct (M x y L) as (z & _ & ->).
  assert (exp (- (z * z) / 2) <= 1). { rewrite <- exp_0. apply exp_le. pose proof (Rle_0_sqr z). unfold Rsqr in *. lra. }
  pose proof (exp_pos (- (z * z) / 2)). assert (c * exp (- (z * z) / 2) <= 2) by nra. apply Rmult_le_compat_r; lra.
Qed.
Lemma normal_step Phi sigma s x : normal_cdf Phi -> 0 < sigma -> 0 < s ->
  at_end (fun y => gaussian_law Phi sigma (y + s)) x - at_end (gaussian_law Phi sigma) x <= 2 * (s / sigma).
Proof.
  intros HP Hb Hs. assert (0 < s / sigma) by (apply Rdiv_lt_0_compat; assumption).
  destruct x as [x| | |]; cbn [at_end]; try lra. unfold gaussian_law.
  assert (E : (x + s) / sigma = x / sigma + s / sigma) by (field; lra). rewrite E.
  pose proof (normal_lip Phi (x / sigma) (x / sigma + s / sigma) HP ltac:(lra)). lra.
Qed.
