(** The constructors succeed. *)
From Verif Require Import Base XReal Exn PyDict TypesAdjacency ModelPmf ModelPld ModelMake ModelMech SpecDP SpecPmf SpecPld SpecMake SpecMech SpecClasses SpecConstruct
  ProofDP ProofDict ProofPmf ProofMake ProofTwo ProofParams ProofDots ProofPeak ProofNoise ProofShape ProofShapeGauss ProofShapeInt ProofAdditive ProofClasses ProofMechTop ProofDotsMech
  ProofBuckets ProofTails ProofTailClasses ProofConstruct.
Local Arguments Rltb : simpl never.
Local Arguments Rleb : simpl never.
Local Arguments Reqb : simpl never.

(** the divergence as a function of e^eps is a privacy curve *)
Lemma law_curve P Q (D : R -> R) : is_cdf P -> is_cdf Q -> (forall eps, divergence_is P Q eps (D eps)) ->
  exists h, privacy_curve h /\ forall eps d, divergence_is P Q eps d -> d = h (exp eps).
Proof.
  intros HP HQ HD. set (h := fun t => if Rltb 0 t then D (ln t) else 1). exists h.
  assert (UB : forall cuts t, StronglySorted Rlt cuts -> 0 <= t -> hs (observe P Q cuts) 1 t <= h t).
  { intros cuts t SC Ht. unfold h. destruct (Rltb_spec 0 t) as [T|T].
    - pose proof (proj1 (HD (ln t)) cuts SC) as B. rewrite hockey_hs, exp_ln in B by assumption. assumption.
    - apply hs_le_a; [apply observe_valid; assumption | lra | assumption]. }
  assert (AT : forall t, 0 <= t -> exists cuts, StronglySorted Rlt cuts /\ hs (observe P Q cuts) 1 t = h t).
  { intros t Ht. unfold h. destruct (Rltb_spec 0 t) as [T|T].
    - destruct (proj2 (HD (ln t))) as (cuts & SC & E). exists cuts. split; [assumption|]. rewrite hockey_hs, exp_ln in E by assumption. assumption.
    - exists []. split; [constructor|]. replace t with 0 by lra. apply hs_b0; [apply observe_valid; try assumption; constructor | lra]. }
  split.
  - split; [unfold h; rewrite Rltb_false by lra; reflexivity|]. split; [|split].
    + intros t Ht. destruct (AT t Ht) as (cuts & SC & <-). split; [apply hs_nonneg | apply hs_le_a; [apply observe_valid; assumption | lra | assumption]].
    + intros t1 t2 Ht. destruct (AT t2 ltac:(lra)) as (cuts & SC & <-). eapply Rle_trans; [|apply (UB cuts t1 SC); lra].
      apply hs_mono; [apply observe_valid; assumption | lra].
    + intros w t1 t2 Hw H1 H2. destruct (AT (w * t1 + (1 - w) * t2)) as (cuts & SC & <-); [nra|].
      eapply Rle_trans; [apply hs_convex; assumption|]. apply Rplus_le_compat; apply Rmult_le_compat_l; try lra; apply UB; assumption.
  - intros eps d Hd. unfold h. rewrite Rltb_true by apply exp_pos. rewrite ln_exp. apply (divergence_unique _ _ _ _ _ Hd (HD eps)).
Qed.

Section Total.
  Context (m : monotone) (ok : R -> Prop) (F f : R -> R) (s q : R) (adj : adjacency) (HA : additive_noise m ok F f s q adj).
  Context (disc : R) (Hd : 0 < disc).
  Let clear : Prop := forall z, ~ near_limit adj q (IZR z * disc).

  Lemma mech_curve : exists h, privacy_curve h /\ forall eps, ~ near_limit adj q eps -> get_delta_for_epsilon m eps = Ok (Fin (h (exp eps))).
  Proof.
    destruct (additive_instance _ _ _ _ _ _ _ HA) as [Hq Hs Ho Hf (pk & cdf & loss0 & inv0 & pt & L & dc & tail & bounds & E & HF & HL & HR & HD)].
    destruct (law_curve (upper_law adj F q s) (lower_law adj F q s) (fun eps => delta_at F s q adj eps (peak adj q s pk eps))) as (h & PC & Hh).
    - apply (law_cdf _ _ _ _ _ HF q Hq adj).
    - apply (law_cdf _ _ _ _ _ HF q Hq adj).
    - apply (delta_at_peak _ _ _ _ _ HF q Hq adj).
    - exists h. split; [assumption|]. intros eps HN. destruct (mech_delta _ _ _ _ _ _ _ HA eps HN) as (d & -> & B). do 2 f_equal. apply Hh, B.
  Qed.
  Lemma deltas_total : clear -> exists h, privacy_curve h /\ forall eps, deltas_at m disc eps = Ok (map (fun z => h (exp (IZR z * disc))) eps).
  Proof.
    intros Hclear. destruct mech_curve as (h & PC & Hh). exists h. split; [assumption|]. induction eps as [|z eps IH]; [reflexivity|].
    cbn [deltas_at map]. rewrite Hh by apply Hclear. cbn [bind]. rewrite IH. reflexivity.
  Qed.
  Lemma round_fin b a : exists k, round_xr b (xdiv (Fin a) (Fin disc)) = Ok k.
  Proof. cbn [xdiv]. rewrite Reqb_false by lra. cbn [round_xr]. eexists. reflexivity. Qed.
  Lemma sorted_snoc l z : StronglySorted Z.lt l -> Forall (fun y => (y < z)%Z) l -> StronglySorted Z.lt (l ++ [z]).
  Proof.
    induction l as [|a l IH]; intros H G; [repeat constructor|]. inversion H; subst. inversion G; subst. cbn. constructor; [apply IH; assumption|].
    apply Forall_app. split; [assumption | constructor; [assumption | constructor]].
  Qed.
  Lemma rev_cons_sorted e acc z : StronglySorted Z.lt (rev (e :: acc)) -> (e < z)%Z -> StronglySorted Z.lt (rev (z :: e :: acc)).
  Proof.
    intros H L. change (rev (z :: e :: acc)) with (rev (e :: acc) ++ [z]). apply sorted_snoc; [assumption|].
    cbn [rev] in *. apply Forall_app. split; [|constructor; [assumption | constructor]].
    revert H. generalize (rev acc). induction l as [|a l IH]; intros H; [constructor|]. cbn in H. inversion H as [|? ? H1 H2]; subst.
    constructor; [|apply IH; assumption]. rewrite Forall_app in H2. destruct H2 as [_ H2]. inversion H2; subst. lia.
  Qed.
  Lemma rounded_sorted n : forall x acc, (forall y, (x - Z.of_nat n < y <= x)%Z -> exists a, privacy_loss m (Fin (IZR y)) = Ok (Fin a)) ->
    StronglySorted Z.lt (rev acc) -> (acc <> [] \/ n <> O) ->
    exists eps, rounded_epsilons m disc x n acc = Ok eps /\ eps <> [] /\ StronglySorted Z.lt eps.
  Proof.
    induction n as [|n IH]; intros x acc HL HS NE.
    - exists (rev acc). split; [reflexivity|]. split; [|assumption]. intros E. apply (f_equal (@rev Z)) in E. rewrite rev_involutive in E. cbn in E. tauto.
    - cbn [rounded_epsilons]. destruct (HL x ltac:(lia)) as [a ->]. cbn [bind]. destruct (round_fin false a) as [lo ->]. destruct (round_fin true a) as [hi ->]. cbn [bind].
      set (acc1 := match acc with [] => [lo] | e :: _ => if (e <? lo)%Z then lo :: acc else acc end).
      assert (S1 : StronglySorted Z.lt (rev acc1) /\ acc1 <> []).
      { unfold acc1. destruct acc as [|e acc]; [split; [repeat constructor | discriminate]|]. destruct (Z.ltb_spec e lo); [|split; [assumption | discriminate]].
        split; [apply rev_cons_sorted; assumption | discriminate]. }
      clearbody acc1. destruct S1 as [S1 N1]. destruct acc1 as [|e acc1]; [congruence|].
      apply IH; [intros y Hy; apply HL; lia | | left; destruct (e <? hi)%Z; discriminate].
      destruct (Z.ltb_spec e hi); [apply rev_cons_sorted; assumption | assumption].
  Qed.

  Lemma dots_pmf_total : clear -> (exists u l, is_discrete m = false /\ connect_dots_bounds m = Ok (EpsilonBounds (Fin u) (Fin l)) /\ l <= u) \/
    (exists lo up, is_discrete m = true /\ connect_dots_bounds m = Ok (PointBounds lo up) /\ (lo <= up)%Z /\
      forall y, (lo <= y <= up)%Z -> exists a, privacy_loss m (Fin (IZR y)) = Ok (Fin a)) ->
    exists p, dots_pmf m disc = Ok p.
  Proof.
    intros Hclear. destruct (deltas_total Hclear) as (h & PC & HD). unfold dots_pmf. intros [(u & l & -> & -> & Hul) | (lo & up & -> & -> & Hlu & HL)]; cbn [bind].
    - cbn [xdiv]. rewrite Reqb_false by lra. cbn [round_xr bind]. rewrite HD. cbn [bind]. rewrite fixed_gap_eq by assumption.
      apply dots_total; [assumption | assumption | | apply zrange_sorted].
      assert (Rfloor (l / disc) <= Rceil (u / disc))%Z.
      { apply le_IZR. pose proof (Rfloor_spec (l / disc)). pose proof (Rceil_spec (u / disc)).
        assert (l / disc <= u / disc) by (apply Rmult_le_compat_r; [left; apply Rinv_0_lt_compat|]; assumption). lra. }
      destruct (Z.to_nat (Rceil (u / disc) - Rfloor (l / disc) + 1)) eqn:E; [lia | discriminate].
    - destruct (rounded_sorted (Z.to_nat (up - lo + 1)) up []) as (eps & -> & NE & SS).
      + intros y Hy. apply HL. lia.
      + constructor.
      + right. lia.
      + cbn [bind]. rewrite HD. cbn [bind]. apply dots_total; assumption.
  Qed.

  (** privacy buckets *)
  Lemma tail_rounded_total (pess : bool) l : (forall k v, In (k, v) l -> k = PInf \/ exists a, k = Fin a) -> forall d, exists d', tail_rounded pess disc l d = Ok d'.
  Proof.
    induction l as [|[k v] l IH]; intros H d; [exists d; reflexivity|]. cbn [tail_rounded].
    assert (H' : forall k v, In (k, v) l -> k = PInf \/ exists a, k = Fin a) by (intros; apply (H k0 v0); right; assumption).
    destruct (H k v (or_introl eq_refl)) as [-> | [a ->]]; cbn [xeqb]; [apply (IH H')|].
    destruct (round_fin pess a) as [z ->]. cbn [bind]. apply (IH H').
  Qed.
  Lemma point_masses_total (pess : bool) n : forall x d, (forall y, (x <= y < x + Z.of_nat n)%Z -> exists a, privacy_loss m (Fin (IZR y)) = Ok (Fin a)) ->
    exists d', point_masses m pess disc x n d = Ok d'.
  Proof.
    induction n as [|n IH]; intros x d HL; [exists d; reflexivity|]. cbn [point_masses]. destruct (HL x ltac:(lia)) as [a ->]. cbn [bind].
    destruct (round_fin pess a) as [k ->]. cbn [bind]. apply IH. intros y Hy. apply HL. lia.
  Qed.
  Lemma between_possible lo hi l1 l2 l : privacy_loss m (Fin lo) = Ok (Fin l1) -> privacy_loss m (Fin hi) = Ok (Fin l2) -> l2 < l -> l <= l1 ->
    ~ near_limit adj q l -> loss_possible adj q l.
  Proof.
    intros H1 H2 A B HN Q.
    destruct (additive_instance _ _ _ _ _ _ _ HA) as [Hq Hs Ho Hf (pk & cdf & loss0 & inv0 & pt & L & dc & tail & bounds & E & HF & HL & HR & HD)].
    rewrite E in H1, H2. apply (in_loss _ _ _ _ _ _ _ HL q Hq adj) in H1, H2. destruct H1 as (_ & E1 & N1). destruct H2 as (_ & E2 & N2).
    pose proof (sub_loss_limit adj q _ ltac:(lra) N1) as B1. pose proof (sub_loss_limit adj q _ ltac:(lra) N2) as B2.
    destruct adj.
    - rewrite <- E1 in B1. apply xleb_fin in B1. destruct (Rle_lt_or_eq_dec l (loss_limit ADD q)) as [|Eq]; [lra | assumption|].
      exfalso. apply HN. split; [assumption|]. rewrite <- Eq. replace (l - l) with 0 by ring. rewrite Rabs_R0.
      apply Rmult_le_pos; [lra|]. eapply Rle_trans; [apply Rabs_pos | apply Rmax_l].
    - rewrite <- E2 in B2. apply xleb_fin in B2. lra.
  Qed.
  Lemma near_dec l : near_limit adj q l \/ ~ near_limit adj q l.
  Proof.
    unfold near_limit. destruct (Rlt_dec q 1) as [A|A]; [|right; tauto].
    destruct (Rle_dec (Rabs (l - loss_limit adj q)) (1 / 10 ^ 9 * Rmax (Rabs l) (Rabs (loss_limit adj q)))) as [B|B]; [left | right]; tauto.
  Qed.
  Lemma mech_inverse_near l : near_limit adj q l -> exists x, inverse_privacy_loss m (Fin l) = Ok x.
  Proof.
    intros HN.
    destruct (additive_instance _ _ _ _ _ _ _ HA) as [Hq Hs Ho Hf (pk & cdf & loss0 & inv0 & pt & L & dc & tail & bounds & E & HF & HL & HR & HD)].
    pose proof (proj1 HN) as Q. rewrite E. cbn [additive inverse_privacy_loss]. unfold a_inverse_privacy_loss. rewrite Reqb_false by lra.
    pose proof (proj2 (isclose_near q adj l ltac:(lra)) HN) as I.
    pose proof (limit_val q adj ltac:(lra)) as LV. destruct adj; rewrite LV, I.
    - destruct (fit_pinf _ _ _ _ _ HF) as (x & Ex & _). exists x. exact Ex.
    - destruct (fit_minf _ _ _ _ _ HF) as (x & Ex & _). exists x. exact Ex.
  Qed.
  Lemma interval_total (pess : bool) lo hi l1 l2 k0 : privacy_loss m (Fin lo) = Ok (Fin l1) -> privacy_loss m (Fin hi) = Ok (Fin l2) -> disc * IZR k0 <= l2 ->
    forall n down x d, (Z.to_nat (down - k0) <= n)%nat -> disc * IZR down <= l1 ->
    exists d', forall fuel, (n + 2 <= fuel)%nat -> interval_masses fuel m pess disc hi (Fin l2) x down d = Ok d'.
  Proof.
    intros H1 H2 HK. induction n as [|n IH]; intros down x d Hn Hl.
    - destruct (xltb x (Fin hi)) eqn:Ex.
      2: { exists d. intros fuel Hf. destruct fuel as [|fuel]; [lia|]. cbn [interval_masses]. rewrite Ex. reflexivity. }
      assert (down <= k0)%Z by lia. assert (L : disc * IZR down <= l2).
      { eapply Rle_trans; [|exact HK]. apply Rmult_le_compat_l; [lra | apply IZR_le; assumption]. }
      eexists. intros fuel Hf. destruct fuel as [|[|fuel]]; [lia | lia|]. cbn [interval_masses]. rewrite Ex, (proj2 (xleb_fin _ _) L). cbn [bind xltb].
      rewrite Rltb_false by lra. reflexivity.
    - destruct (xltb x (Fin hi)) eqn:Ex.
      2: { exists d. intros fuel Hf. destruct fuel as [|fuel]; [lia|]. cbn [interval_masses]. rewrite Ex. reflexivity. }
      destruct (xleb (Fin (disc * IZR down)) (Fin l2)) eqn:El.
      + eexists. intros fuel Hf. destruct fuel as [|[|fuel]]; [lia | lia|]. cbn [interval_masses]. rewrite Ex, El. cbn [bind xltb]. rewrite Rltb_false by lra. reflexivity.
      + assert (GT : l2 < disc * IZR down).
        { apply Rnot_le_lt. intros G. rewrite (proj2 (xleb_fin _ _) G) in El. discriminate. }
        assert (EX : exists x', inverse_privacy_loss m (Fin (disc * IZR down)) = Ok x').
        { destruct (near_dec (disc * IZR down)) as [NL|CL]; [apply mech_inverse_near, NL|].
          destruct (proj1 (mech_inverse_total _ _ _ _ _ _ _ HA _ CL) (between_possible _ _ _ _ _ H1 H2 GT Hl CL)) as (x' & Ex' & _). exists x'. exact Ex'. }
        destruct EX as [x' Ex'].
        destruct (IH (down - 1)%Z x' (dadd d (round_fn pess (IZR down + 1 / 2)) (mu_upper_cdf m x' - mu_upper_cdf m x))) as [d' Hd'].
        { assert (k0 < down)%Z.
          { apply lt_IZR. apply (Rmult_lt_reg_l disc); [assumption | lra]. }
          lia. }
        { rewrite minus_IZR. nra. }
        exists d'. intros fuel Hf. destruct fuel as [|fuel]; [lia|]. cbn [interval_masses]. rewrite Ex, El, Ex'. cbn [bind]. apply Hd'. lia.
  Qed.

  Lemma buckets_total (pess : bool) t : privacy_loss_tail m = Ok t -> (forall k v, In (k, v) (tail_masses t) -> k = PInf \/ exists a, k = Fin a) ->
    (is_discrete m = false /\ (forall x, exists a, privacy_loss m (Fin x) = Ok (Fin a)) \/
     exists lo up, is_discrete m = true /\ lower_x_truncation t = IZR lo /\ upper_x_truncation t = IZR up /\
      forall y, (lo <= y <= up)%Z -> exists a, privacy_loss m (Fin (IZR y)) = Ok (Fin a)) ->
    exists N p, forall fuel, (N <= fuel)%nat -> buckets_pmf fuel m pess disc = Ok p.
  Proof.
    intros Ht HK HC. unfold buckets_pmf. rewrite Ht. cbn [bind].
    destruct (tail_rounded_total pess (tail_masses t) HK []) as [d0 ->]. cbn [bind].
    destruct HC as [[-> HL] | (lo & up & -> & -> & -> & HL)].
    - destruct (HL (lower_x_truncation t)) as [l1 E1]. rewrite E1. cbn [bind]. destruct (round_fin false l1) as [down ED]. rewrite ED. cbn [bind].
      destruct (HL (upper_x_truncation t)) as [l2 E2]. rewrite E2. cbn [bind].
      destruct (round_bound disc Hd _ _ _ ED) as (a & [= <-] & B & _).
      set (k0 := Rfloor (l2 / disc)). assert (B2 : disc * IZR k0 <= l2).
      { unfold k0. pose proof (Rfloor_spec (l2 / disc)). assert (l2 / disc * disc = l2) by (field; lra). nra. }
      destruct (interval_total pess _ _ _ _ k0 E1 E2 B2 (Z.to_nat (down - k0)) down (Fin (lower_x_truncation t)) d0 (le_n _)) as [d' Hd'].
      { rewrite Rmult_comm. assumption. }
      destruct (create_pmf_total d' disc (tail_infinity (tail_masses t)) pess) as [p Hp].
      exists (Z.to_nat (down - k0) + 2)%nat, p. intros fuel Hf. rewrite Hd' by assumption. exact Hp.
    - rewrite ceil_Z, Rfloor_IZR. destruct (point_masses_total pess (Z.to_nat (up - lo + 1)) lo d0) as [d' ->]; [intros y Hy; apply HL; lia|]. cbn [bind].
      destruct (create_pmf_total d' disc (tail_infinity (tail_masses t)) pess) as [p Hp]. exists O, p. intros _ _. exact Hp.
  Qed.
End Total.
