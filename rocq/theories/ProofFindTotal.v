(** The searches for the smallest noise return. *)
From Verif Require Import Base XReal Exn PyDict TypesAdjacency ModelPmf ModelPld ModelMake ModelSearch ModelSmallest ModelMech ModelNoise
  SpecDP SpecPmf SpecPld SpecMake SpecSearch SpecSmallest SpecMech SpecClasses SpecConstruct
  ProofDP ProofDict ProofPmf ProofPld ProofSelf ProofParams ProofDots ProofSearch ProofAccSound ProofAdvanced ProofSmallestEx
  ProofPeak ProofNoise ProofShape ProofShapeGauss ProofShapeInt ProofAdditive ProofClasses ProofMechTop ProofGuarantee
  ProofTails ProofTailClasses ProofDotsMech ProofConstruct ProofConstructTotal ProofConstructEx ProofFindNoise.
Local Arguments Rltb : simpl never.
Local Arguments Rleb : simpl never.
Local Arguments Reqb : simpl never.

(** ** A search that never evaluates the lower end *)
Lemma open_loop func value inc t : 0 < t -> forall n l u, (forall x, l < x <= u -> exists v, func (Fin x) = Ok v) ->
  u - l <= t * 2 ^ n -> l <= u -> forall fuel, (n < fuel)%nat ->
  exists r, search_loop func value inc fuel false (Fin t) (Fin l) (Fin u) = Ok r.
Proof.
  intros Ht. induction n as [|n IH]; intros l u HF HS LU fuel Hf; (destruct fuel as [|fuel]; [lia|]); cbn [search_loop xsub xadd xneg xltb].
  - cbn [pow] in HS. rewrite Rltb_false by lra. eexists; reflexivity.
  - destruct (Rltb_spec t (u + - l)) as [G|G]; [|eexists; reflexivity].
    cbn [xdiv]. rewrite Reqb_false by lra. cbn [pow] in HS. destruct (HF ((u + l) / 2) ltac:(lra)) as [v ->]. cbn [bind].
    destruct (check value inc v); apply IH; try lia; try lra; intros x Hx; apply HF; lra.
Qed.
Lemma open_search u : 0 < u -> exists N, forall func value, (forall x, 0 < x <= u -> exists v, func (Fin x) = Ok v) ->
  forall fuel, (N < fuel)%nat -> exists r, inverse_monotone_function func value false fuel (search_up_to u) = Ok r.
Proof.
  intros Pu. assert (Ht : 0 < 1 / 10 ^ 7) by lra. set (t := 1 / 10 ^ 7) in *. destruct (pow2_above (u / t)) as [n Hn]. exists n. intros func value HF fuel Hf.
  unfold inverse_monotone_function. unfold search_up_to. fold t. cbn [sp_lower sp_upper sp_guess sp_tol sp_discrete xeqb].
  destruct (HF u ltac:(lra)) as [v ->]. cbn [bind]. destruct (xltb value v); [eexists; reflexivity|]. cbn [fst snd].
  destruct (open_loop func value false t Ht n 0 u HF) with (fuel := fuel) as [r ->]; try lia; try lra; [|eexists; reflexivity].
  apply (Rmult_le_compat_l t) in Hn; [|lra]. replace (t * (u / t)) with u in Hn by (field; lra). lra.
Qed.

(** ** The construction by connecting dots *)
Lemma zrange_in lo n z : (lo <= z < lo + Z.of_nat n)%Z -> In z (zrange lo n).
Proof. revert lo. induction n as [|n IH]; intros lo H; [lia|]. cbn [zrange]. destruct (Z.eq_dec lo z); [left; assumption | right; apply IH; lia]. Qed.
Lemma rounded_covers m disc a n : 0 < disc -> forall x acc eps, rounded_epsilons m disc x (S n) acc = Ok eps ->
  privacy_loss m (Fin (IZR (x - Z.of_nat n))) = Ok (Fin a) -> exists z, In z eps /\ a <= IZR z * disc.
Proof.
  intros Hd. induction n as [|n IH]; intros x acc eps H HL.
  - cbn [rounded_epsilons] in H. rewrite Z.sub_0_r in HL. rewrite HL in H. cbn [bind xdiv] in H. rewrite Reqb_false in H by lra.
    cbn [round_xr bind] in H.
    pose proof (Rceil_spec (a / disc)) as C. set (hi := Rceil (a / disc)) in *. set (lo := Rfloor (a / disc)) in *.
    assert (HH : a <= IZR hi * disc).
    { replace a with (a / disc * disc) by (field; lra). apply Rmult_le_compat_r; lra. }
    set (acc1 := match acc with [] => [lo] | e :: _ => if (e <? lo)%Z then lo :: acc else acc end) in *.
    assert (NE : acc1 <> []) by (unfold acc1; destruct acc as [|e acc]; [|destruct (e <? lo)%Z]; discriminate).
    clearbody acc1. destruct acc1 as [|e acc1]; [congruence|]. destruct (Z.ltb_spec e hi) as [L|L].
    + injection H as <-. exists hi. split; [|assumption]. apply in_or_app. right. left; reflexivity.
    + injection H as <-. exists e. split; [apply in_or_app; right; left; reflexivity|]. eapply Rle_trans; [exact HH|].
      apply Rmult_le_compat_r; [lra | apply IZR_le; assumption].
  - cbn [rounded_epsilons] in H. apply bind_Ok in H. destruct H as (l & _ & H). apply bind_Ok in H. destruct H as (lo & _ & H).
    apply bind_Ok in H. destruct H as (hi & _ & H). eapply (IH (x - 1)%Z); [exact H|].
    replace (x - 1 - Z.of_nat n)%Z with (x - Z.of_nat (S n))%Z by lia. assumption.
Qed.

(** the grid reaches beyond the largest loss [c] *)
Definition reaches (m : monotone) (disc c : R) : Prop :=
  (exists u l, is_discrete m = false /\ connect_dots_bounds m = Ok (EpsilonBounds (Fin u) (Fin l)) /\ l <= u /\ c <= u) \/
  (exists lo up, is_discrete m = true /\ connect_dots_bounds m = Ok (PointBounds lo up) /\ (lo <= up)%Z /\
     (forall y, (lo <= y <= up)%Z -> exists a, privacy_loss m (Fin (IZR y)) = Ok (Fin a)) /\
     exists a, privacy_loss m (Fin (IZR lo)) = Ok (Fin a) /\ c <= a).
Lemma dots_grid m disc p c : 0 < disc -> reaches m disc c -> dots_pmf m disc = Ok p ->
  exists eps ds z, deltas_at m disc eps = Ok ds /\ connect_dots disc eps ds = Ok p /\ In z eps /\ c <= IZR z * disc.
Proof.
  intros Hd. unfold dots_pmf. intros [(u & l & -> & -> & Hul & Hc) | (lo & up & -> & -> & Hlu & HL & a & Ea & Hc)]; cbn [bind].
  - cbn [xdiv]. rewrite Reqb_false by lra. cbn [round_xr bind]. set (k := Rceil (u / disc)). set (k0 := Rfloor (l / disc)).
    destruct (deltas_at m disc _) as [ds|] eqn:ED; cbn [bind]; [|discriminate]. rewrite fixed_gap_eq by assumption. intros HC.
    exists (zrange k0 (Z.to_nat (k - k0 + 1))), ds, k. split; [assumption|]. split; [assumption|].
    pose proof (Rceil_spec (u / disc)) as C. pose proof (Rfloor_spec (l / disc)) as Fl. fold k in C. fold k0 in Fl.
    assert (LU : l / disc <= u / disc) by (apply Rmult_le_compat_r; [left; apply Rinv_0_lt_compat|]; assumption).
    assert (k0 <= k)%Z by (apply le_IZR; lra). split; [apply zrange_in; lia|].
    apply (Rmult_le_reg_r (/ disc)); [apply Rinv_0_lt_compat, Hd|]. replace (IZR k * disc * / disc) with (IZR k) by (field; lra).
    apply (Rmult_le_compat_r (/ disc)) in Hc; [|left; apply Rinv_0_lt_compat, Hd]. unfold Rdiv in C. lra.
  - destruct (rounded_epsilons _ _ _ _ _) as [eps|] eqn:ER; cbn [bind]; [|discriminate].
    destruct (deltas_at m disc eps) as [ds|] eqn:ED; cbn [bind]; [|discriminate]. intros HC.
    replace (Z.to_nat (up - lo + 1)) with (S (Z.to_nat (up - lo))) in ER by lia.
    destruct (rounded_covers m disc a (Z.to_nat (up - lo)) Hd _ _ _ ER) as (z & Hz & Lz).
    { replace (up - Z.of_nat (Z.to_nat (up - lo)))%Z with lo by lia. assumption. }
    exists eps, ds, z. split; [assumption|]. split; [assumption|]. split; [assumption | lra].
Qed.

(** without sampling, and with a bounded loss, the pmf has total mass one and no infinite loss *)
Lemma dots_zero m ok F f s disc p c eps ds z : 0 < disc -> additive_noise m ok F f s 1 REMOVE ->
  (forall eps E, c <= eps -> noisy_query ok F 1 s E -> dp_both E eps 0) ->
  deltas_at m disc eps = Ok ds -> connect_dots disc eps ds = Ok p -> In z eps -> c <= IZR z * disc ->
  proper p /\ pmf_delta p (Fin (IZR z * disc)) <= 0 /\ infinity_mass p = 0.
Proof.
  intros Hd HA HP HD HC Hz Lz.
  destruct (deltas_total m ok F f s 1 REMOVE HA disc (grid_clear_1 disc REMOVE)) as (h & PC & HT). rewrite HT in HD. injection HD as <-.
  destruct (dots_curve disc Hd eps p h PC HC) as (PR & EX & _). split; [assumption|].
  pose proof (proj1 PR) as W. pose proof W as (_ & I0 & _).
  destruct (mech_delta _ _ _ _ _ _ _ HA (IZR z * disc) (grid_clear_1 disc REMOVE z)) as (d & Ed & [_ (cuts & SC & DD)]).
  destruct (additive_instance _ _ _ _ _ _ _ HA) as [Hq Hs Ho Hf _].
  assert (D0 : d <= 0).
  { rewrite <- DD. cbn [upper_law lower_law]. apply dp_iff_hockey. apply (HP (IZR z * disc) _ Lz). apply extreme_remove; assumption. }
  assert (EH : h (exp (IZR z * disc)) = d).
  { pose proof (deltas_at_in m disc [z] [h (exp (IZR z * disc))] z (h (exp (IZR z * disc))) (HT [z]) (or_introl eq_refl)) as K. rewrite Ed in K. injection K as ->. reflexivity. }
  assert (IM : infinity_mass p <= pmf_delta p (Fin (IZR z * disc))).
  { rewrite pmf_delta_psum by assumption. unfold ptest. assert (0 <= psum p (hgain (discretization p) (IZR z * disc))); [|lra].
    apply psum_nonneg; [assumption|]. intros k. unfold hgain. apply Rmax_l. }
  rewrite (EX z Hz), EH in *. lra.
Qed.
Lemma dots_finite m ok F f s disc p c : 0 < disc -> additive_noise m ok F f s 1 REMOVE -> reaches m disc c ->
  (forall eps E, c <= eps -> noisy_query ok F 1 s E -> dp_both E eps 0) -> dots_pmf m disc = Ok p ->
  proper p /\ infinity_mass p = 0.
Proof.
  intros Hd HA HR HP H. destruct (dots_grid m disc p c Hd HR H) as (eps & ds & z & HD & HC & Hz & Lz).
  destruct (dots_zero m ok F f s disc p c eps ds z Hd HA HP HD HC Hz Lz) as (A & _ & B). auto.
Qed.
Lemma size_positive p : 0 < psum p (fun _ => 1) -> pmf_size p <> 0%nat.
Proof. unfold psum, pmf_size. destruct (pmf_body p) as [[|x d]|lo [|x l]]; cbn; try lra; discriminate. Qed.

Lemma composed_delta fast_len n eps (p : pmf) : (1 <= n)%Z -> proper p -> infinity_mass p = 0 ->
  exists v, (let? Dn := pld_self_compose fast_len (new_pld p None) n default_tail in Ok (Fin (pld_delta Dn (Fin eps)))) = Ok v.
Proof.
  intros Hn PR I0. apply proper_total in PR. destruct PR as [W T]. unfold total in T. rewrite I0, Rplus_0_r in T.
  destruct (pmf_self_total fast_len p n default_tail W) as [r E]; try rewrite T; try rewrite I0; try lra; try assumption.
  - apply size_positive. rewrite T. lra.
  - apply default_tail_pos.
  - right. rewrite pow1. unfold default_tail. lra.
  - unfold pld_self_compose. cbn [new_pld pmf_remove pmf_add symmetric]. rewrite E. cbn [bind]. eexists. reflexivity.
Qed.

Lemma laplace_delta_total fast_len fuel eps n s b : (1 <= n)%Z -> 0 < eps -> 0 < s -> 0 < b ->
  exists v, delta_for_parameter fast_len default_tail eps n (laplace_for fuel eps n s) (Fin b) = Ok v.
Proof.
  intros Hn He Hs Hb. unfold delta_for_parameter, laplace_for. rewrite (proj2 (Z.eqb_neq n 0)) by lia.
  pose proof (IZR_le _ _ Hn) as Hn'. set (disc := 1/10 * eps / IZR n). assert (Hd : 0 < disc) by (apply Rdiv_lt_0_compat; lra).
  unfold from_laplace_mechanism, subsampled_pld. rewrite Reqb_true by reflexivity.
  destruct (LaplacePrivacyLoss b s 1 REMOVE) as [m|] eqn:Em.
  2:{ exfalso. unfold LaplacePrivacyLoss in Em. rewrite Rleb_false in Em by lra. rewrite check_additive_true in Em by lra. discriminate. }
  cbn [bind]. unfold monotone_pmf. cbn [andb]. pose proof (laplace_noise m b s 1 REMOVE Em) as HA.
  assert (HR : reaches m disc (s / b)).
  { left. apply laplace_ok in Em. destruct Em as [_ ->]. cbn [additive is_discrete connect_dots_bounds]. unfold laplace_bounds. rewrite Reqb_true by reflexivity.
    assert (0 < s / b) by (apply Rdiv_lt_0_compat; assumption). do 2 eexists. split; [reflexivity|]. split; [reflexivity|]. lra. }
  destruct (dots_pmf_total m _ _ _ _ 1 REMOVE HA disc Hd (grid_clear_1 disc REMOVE)) as [p Hp].
  { left. destruct HR as [(u & l & A1 & A2 & A3 & A4)|(lo & up & A1 & _)]; [exists u, l; auto|].
    exfalso. apply laplace_ok in Em. destruct Em as [_ ->]. discriminate. }
  rewrite Hp. cbn [bind]. destruct (dots_finite m _ _ _ s disc p (s / b) Hd HA HR) as [PR I0]; [|assumption|].
  - intros e E Le. apply laplace_pure; assumption.
  - apply composed_delta; assumption.
Qed.
Lemma dlaplace_delta_total fast_len fuel eps n s i : (1 <= n)%Z -> (0 < s)%Z -> 0 < i ->
  exists v, delta_for_parameter fast_len default_tail eps n (discrete_laplace_for fuel s) (Fin i) = Ok v.
Proof.
  intros Hn Hs Hi. unfold delta_for_parameter, discrete_laplace_for. rewrite Reqb_false by lra.
  set (a := 1 / i). assert (Ha : 0 < a) by (apply Rdiv_lt_0_compat; lra). pose proof (IZR_lt _ _ Hs) as Hs'.
  unfold from_discrete_laplace_mechanism, subsampled_pld. rewrite Reqb_true by reflexivity.
  destruct (DiscreteLaplacePrivacyLoss a s 1 REMOVE) as [m|] eqn:Em.
  2:{ exfalso. unfold DiscreteLaplacePrivacyLoss in Em. rewrite Rleb_false in Em by lra. rewrite check_additive_true in Em by lra. discriminate. }
  cbn [bind]. unfold monotone_pmf. cbn [andb].
  pose proof (discrete_laplace_noise m a s 1 REMOVE _ (dlaplace_noise a Ha) Em) as HA.
  assert (HB : is_discrete m = true /\ connect_dots_bounds m = Ok (PointBounds (- s) 0) /\
    forall y, exists c, privacy_loss m (Fin (IZR y)) = Ok (Fin c) /\ (y = (- s)%Z -> c = IZR s * a)).
  { apply dlaplace_ok in Em. destruct Em as [_ ->]. split; [reflexivity|]. split; [reflexivity|]. intros y.
    cbn [additive privacy_loss]. pose proof (dlaplace_loses a s Ha Hs) as HL.
    rewrite (loss_ok _ _ _ _ _ HL 1 ltac:(lra) REMOVE (IZR y) (int_IZR y)). cbn [base_loss sub_loss sub_remove]. rewrite ?Reqb_true by reflexivity.
    eexists. split; [reflexivity|]. intros ->. rewrite opp_IZR. replace (- IZR s + IZR s) with 0 by ring. rewrite Rabs_R0, Rabs_Ropp, Rabs_right by lra.
    replace (1 * _ + _) with (exp (IZR s * a)); [apply ln_exp|]. rewrite Rminus_0_r. ring. }
  destruct HB as (B1 & B2 & B3).
  assert (HR : reaches m a (IZR s * a)).
  { right. exists (- s)%Z, 0%Z. split; [assumption|]. split; [assumption|]. split; [lia|]. split.
    - intros y _. destruct (B3 y) as (c & E & _). exists c. assumption.
    - destruct (B3 (- s)%Z) as (c & E & C). exists c. split; [assumption|]. rewrite C by reflexivity. lra. }
  destruct (dots_pmf_total m _ _ _ _ 1 REMOVE HA a Ha (grid_clear_1 a REMOVE)) as [p Hp].
  { right. exists (- s)%Z, 0%Z. split; [assumption|]. split; [assumption|]. split; [lia|]. intros y _. destruct (B3 y) as (c & E & _). exists c. assumption. }
  rewrite Hp. cbn [bind]. destruct (dots_finite m _ _ _ (IZR s) a p (IZR s * a) Ha HA HR) as [PR I0]; [|assumption|].
  - intros e E Le. apply dlaplace_pure; assumption.
  - apply composed_delta; assumption.
Qed.

(** ** The searches return *)
Lemma laplace_noise_total fast_len eps delta pp n s : privacy_parameters eps delta = Ok pp -> 0 < eps -> (1 <= n)%Z -> 0 < s ->
  exists N, forall fuel, (N < fuel)%nat -> exists x, smallest_laplace_noise fast_len fuel pp n s = Ok x.
Proof.
  intros HP He Hn Hs. destruct (params_inv _ _ _ HP) as (-> & _ & Hd). pose proof (IZR_le _ _ Hn) as Hn'.
  assert (U : 0 < IZR n * s / eps) by (apply Rdiv_lt_0_compat; [apply Rmult_lt_0_compat; lra | assumption]).
  destruct (open_search _ U) as [N HN]. exists N. intros fuel Hf. unfold smallest_laplace_noise, smallest_parameter. cbn [fst snd].
  rewrite Reqb_false by lra. destruct (HN (delta_for_parameter fast_len default_tail eps n (laplace_for fuel eps n s)) (Fin delta)) with (fuel := fuel) as [r ->].
  - intros x Hx. apply laplace_delta_total; try assumption; lra.
  - assumption.
  - eexists. reflexivity.
Qed.
Lemma discrete_laplace_noise_total fast_len eps delta pp n s : privacy_parameters eps delta = Ok pp -> 0 < eps -> (1 <= n)%Z -> (0 < s)%Z ->
  exists N, forall fuel, (N < fuel)%nat -> exists x, smallest_discrete_laplace_noise fast_len fuel pp n s = Ok x.
Proof.
  intros HP He Hn Hs. destruct (params_inv _ _ _ HP) as (-> & _ & Hd). pose proof (IZR_le _ _ Hn) as Hn'. pose proof (IZR_lt _ _ Hs) as Hs'.
  assert (U : 0 < IZR n * IZR s / eps) by (apply Rdiv_lt_0_compat; [apply Rmult_lt_0_compat; lra | assumption]).
  destruct (open_search _ U) as [N HN]. exists N. intros fuel Hf. unfold smallest_discrete_laplace_noise, smallest_parameter. cbn [fst snd].
  rewrite Reqb_false by lra. destruct (HN (delta_for_parameter fast_len default_tail eps n (discrete_laplace_for fuel s)) (Fin delta)) with (fuel := fuel) as [r Hr].
  - intros x Hx. apply dlaplace_delta_total; try assumption; lra.
  - assumption.
  - rewrite Hr. cbn [bind]. destruct r as [x|].
    + destruct (inverse_decreasing _ _ _ 0 (Fin (IZR n * IZR s / eps)) None (1 / 10 ^ 7) false _ (search_up_to_ok _ (Rlt_le _ _ U)) Hr) as [_ S].
      destruct (S x eq_refl) as (i & -> & _ & (v & Hv & _) & _). unfold delta_for_parameter, discrete_laplace_for in Hv.
      destruct (Reqb_spec i 0); [discriminate | eexists; reflexivity].
    + rewrite (proj2 (Z.eqb_neq (n * s) 0)) by nia. eexists. reflexivity.
Qed.
