(** The estimate of the histogram tester is the largest advantage on the samples, less the
    correction. *)
From Verif Require Import Base Exn TypesAudit ModelAudit SpecDP SpecAudit ProofHoeffding ProofHist ProofAudit.
Local Arguments Rltb : simpl never.
Local Arguments Rleb : simpl never.
Local Arguments Reqb : simpl never.

Lemma sub_lt v a c : v = a - c -> 0 < c -> v < a.
Proof. intros -> H. lra. Qed.

Lemma weighted {A} (bin : A -> Z) k (q : nat -> R) l : (forall a, In a l -> (0 <= bin a < Z.of_nat k)%Z) ->
  rsum (fun i => q i * cnt bin i l) (seq 0 k) = rsum (fun a => q (Z.to_nat (bin a))) l.
Proof.
  induction l as [|a l IH]; intros Hb; cbn [rsum].
  - apply rsum_zero. intros i _. unfold cnt. cbn [filter List.length INR]. ring.
  - rewrite <- IH by (intros; apply Hb; right; assumption).
    rewrite <- (pick_bin q k (bin a)) by (apply Hb; left; reflexivity). rewrite <- rsum_plus. apply rsum_ext. intros i _.
    rewrite cnt_cons. unfold hit, indicator. destruct (bin a =? Z.of_nat i)%Z; ring.
Qed.

Lemma count_sum {A} (S : A -> bool) l : INR (List.length (filter S l)) = rsum (fun a => indicator (S a)) l.
Proof.
  induction l as [|a l IH]; cbn [filter rsum]; [reflexivity|]. unfold indicator at 1. destruct (S a); rewrite <- IH; [|ring].
  cbn [List.length]. rewrite S_INR. ring.
Qed.

Section Estimate.
  Context {A : Type} (dist : hist_config -> list A -> res (list R)) (t : hist_tester) (ok : A -> Prop) (bin : A -> Z).
  Context (s1 s2 : list A) (failure : R).
  Hypothesis Hbin : bins_with dist (t_config t) ok bin.
  Hypothesis N1 : s1 <> [].
  Hypothesis N2 : s2 <> [].
  Hypothesis O1 : forall a, In a s1 -> ok a.
  Hypothesis O2 : forall a, In a s2 -> ok a.
  Local Notation k := (h_size (t_config t)).
  Local Notation eps := (t_epsilon t).

  Lemma len_pos (s : list A) : s <> [] -> 0 < INR (List.length s).
  Proof. intros H. apply lt_0_INR. destruct s; [congruence|cbn [List.length]; lia]. Qed.

  Lemma emp_weighted s (S : nat -> bool) : s <> [] -> (forall a, In a s -> ok a) ->
    empirical s (fun a => S (Z.to_nat (bin a))) = rsum (fun i => indicator (S i) * freq bin s i) (seq 0 k).
  Proof.
    intros Hs Ho. unfold empirical. rewrite count_sum.
    rewrite <- (weighted bin k (fun i => indicator (S i))) by (intros a Ha; apply Hbin, Ho, Ha).
    unfold Rdiv. rewrite <- rsum_scal_r. apply rsum_ext. intros i _. unfold freq, Rdiv. ring.
  Qed.

  Lemma emp_bin s i : empirical s (fun a => (bin a =? Z.of_nat i)%Z) = freq bin s i.
  Proof. reflexivity. Qed.

  Lemma point_freq : point_estimate t (frequencies bin k s1) (frequencies bin k s2)
    = rsum (fun i => pos (freq bin s1 i - exp eps * freq bin s2 i)) (seq 0 k).
  Proof. apply point_estimate_bins. Qed.

  Definition best (i : nat) : bool := Rltb 0 (freq bin s1 i - exp eps * freq bin s2 i).

  Lemma adv_bins (S : nat -> bool) : advantage eps s1 s2 (fun a => S (Z.to_nat (bin a)))
    = rsum (fun i => indicator (S i) * (freq bin s1 i - exp eps * freq bin s2 i)) (seq 0 k).
  Proof.
    unfold advantage. rewrite !emp_weighted by assumption. rewrite <- rsum_scal, <- rsum_minus. apply rsum_ext. intros i _. ring.
  Qed.
  Lemma adv_best : advantage eps s1 s2 (fun a => best (Z.to_nat (bin a)))
    = rsum (fun i => pos (freq bin s1 i - exp eps * freq bin s2 i)) (seq 0 k).
  Proof.
    rewrite adv_bins. apply rsum_ext. intros i _. unfold best, pos, indicator. destruct (Rltb_spec 0 (freq bin s1 i - exp eps * freq bin s2 i)).
    - rewrite Rmax_right by lra. ring.
    - rewrite Rmax_left by lra. ring.
  Qed.
  Lemma adv_max (S : nat -> bool) : advantage eps s1 s2 (fun a => S (Z.to_nat (bin a))) <= advantage eps s1 s2 (fun a => best (Z.to_nat (bin a))).
  Proof.
    rewrite adv_best, adv_bins. apply rsum_le. intros i _. unfold indicator, pos. destruct (S i).
    - rewrite Rmult_1_l. apply Rmax_r.
    - rewrite Rmult_0_l. apply Rmax_l.
  Qed.

  Lemma estimate_value v : estimate_lower_bound dist t s1 s2 failure = Ok (Some v) ->
    v = advantage eps s1 s2 (fun a => best (Z.to_nat (bin a)))
        - correction (h_original (t_config t)) eps k (Nat.min (List.length s1) (List.length s2)) failure (freq bin s1) (freq bin s2)
    /\ failure <> 0 /\ 0 < 4 / failure /\ 0 <= ln (4 / failure).
  Proof.
    intros Hv. rewrite adv_best, <- point_freq. unfold estimate_lower_bound in Hv. destruct Hbin as [_ Hd].
    rewrite (Hd s1 N1 O1), (Hd s2 N2 O2) in Hv. cbn [bind] in Hv. unfold error_tolerance in Hv.
    destruct (Reqb_spec failure 0) as [Hf|Hf]; cbn [bind] in Hv; [discriminate|].
    unfold np_log in Hv. destruct (Rleb_spec (4 / failure) 0) as [H4|H4]; [discriminate|].
    unfold np_sqrt in Hv. set (n := Nat.min (List.length s1) (List.length s2)) in *.
    assert (HN : 0 < INR n).
    { apply lt_0_INR. unfold n. destruct s1, s2; try congruence. cbn [List.length]. lia. }
    destruct (Rltb_spec (ln (4 / failure) / (2 * INR n)) 0) as [Hl|Hl]; [discriminate|].
    injection Hv as <-. split; [|split; [exact Hf|split; [lra|]]].
    2:{ assert (E : ln (4 / failure) = ln (4 / failure) / (2 * INR n) * (2 * INR n)) by (field; lra). rewrite E.
        apply Rmult_le_pos; lra. }
    unfold correction. f_equal. f_equal. destruct (h_original (t_config t)); [reflexivity|].
    unfold frequencies, bin_counts. rewrite !map_map, !rsum_map.
    change (fun i => INR (List.length (filter (fun a => (bin a =? Z.of_nat i)%Z) s1)) / INR (List.length s1)) with (freq bin s1).
    f_equal. unfold Rdiv. ring_simplify. f_equal.
  Qed.

  Lemma freq_range s i : s <> [] -> 0 <= freq bin s i <= 1.
  Proof.
    intros Hs. pose proof (len_pos s Hs). unfold freq.
    assert (0 <= cnt bin i s <= INR (List.length s)).
    { split; [apply cnt_nonneg|]. unfold cnt. apply le_INR. clear. induction s as [|a s IH]; cbn [filter List.length]; [lia|].
      destruct (hit bin i a); cbn [List.length]; lia. }
    split; [apply Rmult_le_pos; [lra|apply Rlt_le, Rinv_0_lt_compat; assumption]|].
    apply Rmult_le_reg_r with (INR (List.length s)); [assumption|].
    replace (cnt bin i s / INR (List.length s) * INR (List.length s)) with (cnt bin i s) by (field; lra). lra.
  Qed.
  Lemma correction_pos : 0 < correction (h_original (t_config t)) eps k (Nat.min (List.length s1) (List.length s2)) failure (freq bin s1) (freq bin s2).
  Proof.
    set (n := Nat.min (List.length s1) (List.length s2)).
    assert (HN : 0 < INR n).
    { apply lt_0_INR. unfold n. destruct s1, s2; try congruence. cbn [List.length]. lia. }
    pose proof (exp_pos eps) as He.
    assert (Hk : (0 < k)%nat).
    { destruct s1 as [|a s]; [congruence|]. assert (H := proj1 Hbin a (O1 a (or_introl eq_refl))). lia. }
    unfold correction. apply Rplus_lt_le_0_compat.
    - destruct (h_original (t_config t)).
      + apply Rmult_lt_0_compat; [lra|]. apply sqrt_lt_R0. apply Rmult_lt_0_compat; [apply lt_0_INR; exact Hk|apply Rinv_0_lt_compat; exact HN].
      + assert (Hs : 0 < / sqrt (INR n)) by (apply Rinv_0_lt_compat, sqrt_lt_R0; exact HN).
        assert (H1 : 1 <= rsum (fun i => sqrt (freq bin s1 i)) (seq 0 k)).
        { assert (E : rsum (freq bin s1) (seq 0 k) = 1).
          { pose proof (len_pos s1 N1). unfold freq, Rdiv. rewrite rsum_scal_r.
            rewrite (rsum_ext _ (fun i => 1 * cnt bin i s1)) by (intros; ring).
            rewrite (weighted bin k (fun _ => 1)) by (intros a Ha; apply Hbin, O1, Ha).
            rewrite rsum_const. field. lra. }
          rewrite <- E. apply rsum_le. intros i _. pose proof (freq_range s1 i N1).
          rewrite <- (sqrt_square (freq bin s1 i)) at 1 by lra. apply sqrt_le_1_alt. nra. }
        assert (H2 : 0 <= rsum (fun i => sqrt (freq bin s2 i)) (seq 0 k)) by (apply rsum_nonneg; intros; apply sqrt_pos).
        unfold Rdiv. assert (0 < exp eps * (2 * / sqrt (INR n))) by (apply Rmult_lt_0_compat; lra). nra.
    - apply Rmult_le_pos; [lra|apply sqrt_pos].
  Qed.
End Estimate.

(** C54 for discrete mechanisms. *)
Lemma discrete_inv c s p : estimate_discrete c s = Ok p -> s <> [] /\ forall a, In a s -> (0 <= a < Z.of_nat (h_size c))%Z.
Proof.
  unfold estimate_discrete. destruct s as [|x s]; [discriminate|]. intros H. split; [discriminate|].
  destruct (existsb (fun a => (Z.of_nat (h_size c) <=? a)%Z) (x :: s)) eqn:E1; [discriminate|].
  destruct (existsb (fun a => (a <? 0)%Z) (x :: s)) eqn:E2; [discriminate|].
  intros a Ha. split.
  - apply Z.nlt_ge. intros Hc. assert (existsb (fun a => (a <? 0)%Z) (x :: s) = true); [|congruence].
    apply existsb_exists. exists a. split; [exact Ha|apply Z.ltb_lt; exact Hc].
  - apply Z.nle_gt. intros Hc. assert (existsb (fun a => (Z.of_nat (h_size c) <=? a)%Z) (x :: s) = true); [|congruence].
    apply existsb_exists. exists a. split; [exact Ha|apply Z.leb_le; exact Hc].
Qed.
Lemma estimate_inv {A} dist t (s1 s2 : list A) failure v : estimate_lower_bound dist t s1 s2 failure = Ok (Some v) ->
  exists p1 p2, dist (t_config t) s1 = Ok p1 /\ dist (t_config t) s2 = Ok p2.
Proof.
  unfold estimate_lower_bound. destruct (dist (t_config t) s1) as [p1|]; cbn [bind]; [|discriminate].
  destruct (dist (t_config t) s2) as [p2|]; cbn [bind]; [|discriminate]. intros _. exists p1, p2. split; reflexivity.
Qed.

Lemma advantage_ext {A} eps (s1 s2 : list A) S S' : (forall a, In a s1 \/ In a s2 -> S a = S' a) -> advantage eps s1 s2 S = advantage eps s1 s2 S'.
Proof.
  intros H. assert (F : forall s : list A, (forall a, In a s -> S a = S' a) -> filter S s = filter S' s).
  { induction s as [|a s IH]; intros Hs; cbn [filter]; [reflexivity|]. rewrite (Hs a (or_introl eq_refl)), IH by (intros; apply Hs; right; assumption). reflexivity. }
  unfold advantage, empirical. rewrite (F s1), (F s2) by (intros; apply H; auto). reflexivity.
Qed.

Lemma discrete_estimate t s1 s2 failure v : estimate_lower_bound estimate_discrete t s1 s2 failure = Ok (Some v) ->
  exists S, (forall S', advantage (t_epsilon t) s1 s2 S' <= advantage (t_epsilon t) s1 s2 S)
    /\ v = advantage (t_epsilon t) s1 s2 S
        - correction (h_original (t_config t)) (t_epsilon t) (h_size (t_config t)) (Nat.min (List.length s1) (List.length s2)) failure
            (fun i => empirical s1 (fun a => (a =? Z.of_nat i)%Z)) (fun i => empirical s2 (fun a => (a =? Z.of_nat i)%Z))
    /\ v < advantage (t_epsilon t) s1 s2 S.
Proof.
  intros Hv. destruct (estimate_inv _ _ _ _ _ _ Hv) as (p1 & p2 & E1 & E2).
  destruct (discrete_inv _ _ _ E1) as [N1 O1]. destruct (discrete_inv _ _ _ E2) as [N2 O2].
  assert (Hb := discrete_bins (t_config t)).
  destruct (estimate_value _ t _ _ s1 s2 failure Hb N1 N2 O1 O2 v Hv) as [Ev _].
  assert (Hc := correction_pos _ t _ _ s1 s2 failure Hb N1 N2 O1 O2).
  exists (fun a => best t (fun a => a) s1 s2 (Z.to_nat a)). split; [|split; [exact Ev|exact (sub_lt _ _ _ Ev Hc)]].
  intros S'. rewrite (advantage_ext _ s1 s2 S' (fun a => S' (Z.of_nat (Z.to_nat a)))).
  - apply (adv_max estimate_discrete t _ (fun a => a) s1 s2 Hb N1 N2 O1 O2 (fun i => S' (Z.of_nat i))).
  - intros a [Ha|Ha]; f_equal; [specialize (O1 a Ha)|specialize (O2 a Ha)]; lia.
Qed.

(** C54 for continuous mechanisms. *)
Lemma continuous_inv c s p : estimate_continuous c s = Ok p -> s <> [] /\ (0 < h_size c)%nat /\ h_min c <= h_max c.
Proof.
  unfold estimate_continuous. destruct s as [|x s]; [discriminate|].
  destruct (Nat.eqb_spec (h_size c) 0); [discriminate|]. destruct (Rltb_spec (h_max c) (h_min c)); [discriminate|].
  intros _. split; [discriminate|]. split; [lia|lra].
Qed.
Lemma range_eq c : bin_range c = (range_low c, range_high c).
Proof. unfold bin_range, range_low, range_high, Reqb. destruct (Req_EM_T (h_min c) (h_max c)); reflexivity. Qed.

Lemma bin_unique c i x : (0 < h_size c)%nat -> h_min c <= h_max c -> in_bin c i x -> continuous_bin c x = Z.of_nat i.
Proof.
  intros Hk Hm (Hi & H1 & H2). unfold continuous_bin, histogram_bin. rewrite range_eq. cbn [fst snd].
  change (np_clip (h_min c) (h_max c) x) with (Rmin (Rmax x (h_min c)) (h_max c)).
  set (y := Rmin (Rmax x (h_min c)) (h_max c)) in *.
  assert (HK : 0 < INR (h_size c)) by (apply lt_0_INR; exact Hk).
  assert (Hlh : range_low c < range_high c) by (unfold range_low, range_high; destruct (Req_EM_T (h_min c) (h_max c)); lra).
  set (lo := range_low c) in *. set (hi := range_high c) in *. set (K := INR (h_size c)) in *.
  set (w := (y - lo) * K / (hi - lo)).
  assert (Ey : y = lo + w * ((hi - lo) / K)) by (unfold w; field; lra).
  assert (Hw : 0 < (hi - lo) / K) by (apply Rmult_lt_0_compat; [lra|apply Rinv_0_lt_compat; exact HK]).
  assert (W1 : INR i <= w).
  { apply Rmult_le_reg_r with ((hi - lo) / K); [exact Hw|]. lra. }
  assert (Hint : forall z, IZR z <= w < IZR z + 1 -> Int_part w = z).
  { intros z Hz. destruct (base_Int_part w) as [B1 B2].
    assert (Int_part w < z + 1)%Z by (apply lt_IZR; rewrite plus_IZR; lra).
    assert (z < Int_part w + 1)%Z by (apply lt_IZR; rewrite plus_IZR; lra). lia. }
  destruct H2 as [H2|[Ei Eh]].
  - assert (W2 : w < INR (S i)).
    { apply Rmult_lt_reg_r with ((hi - lo) / K); [exact Hw|]. lra. }
    rewrite S_INR in W2. rewrite (Hint (Z.of_nat i)) by (rewrite <- INR_IZR_INZ; lra).
    destruct (Z.eqb_spec (Z.of_nat i) (Z.of_nat (h_size c))); [lia|reflexivity].
  - assert (W : w = K) by (unfold w; rewrite Eh; field; lra).
    rewrite (Hint (Z.of_nat (h_size c))) by (rewrite <- INR_IZR_INZ; fold K; lra).
    rewrite Z.eqb_refl. lia.
Qed.

(** Every value has a bin. *)
Lemma bins_exist c : (0 < h_size c)%nat -> h_min c <= h_max c -> exists bin_of, forall x, in_bin c (bin_of x) x.
Proof.
  intros Hk Hm. exists (fun x => Z.to_nat (continuous_bin c x)). intros x.
  destruct (continuous_bins c Hk Hm) as [Hr _]. specialize (Hr x Logic.I). revert Hr.
  unfold continuous_bin, histogram_bin. rewrite range_eq. cbn [fst snd].
  change (np_clip (h_min c) (h_max c) x) with (Rmin (Rmax x (h_min c)) (h_max c)). unfold in_bin.
  set (y := Rmin (Rmax x (h_min c)) (h_max c)).
  assert (HK : 0 < INR (h_size c)) by (apply lt_0_INR; exact Hk).
  assert (Hy : h_min c <= y <= h_max c).
  { unfold y. split; [apply Rmin_glb; [apply Rmax_r|exact Hm]|apply Rmin_r]. }
  assert (Hlh : range_low c < range_high c /\ range_low c <= y <= range_high c)
    by (unfold range_low, range_high; destruct (Req_EM_T (h_min c) (h_max c)); lra).
  set (lo := range_low c) in *. set (hi := range_high c) in *. set (K := INR (h_size c)) in *.
  set (w := (y - lo) * K / (hi - lo)).
  assert (Ey : y = lo + w * ((hi - lo) / K)) by (unfold w; field; lra).
  assert (Hw : 0 < (hi - lo) / K) by (apply Rmult_lt_0_compat; [lra|apply Rinv_0_lt_compat; exact HK]).
  destruct (base_Int_part w) as [B1 B2].
  assert (WK : w <= K).
  { apply Rmult_le_reg_r with ((hi - lo) / K); [exact Hw|]. replace (K * ((hi - lo) / K)) with (hi - lo) by (field; lra). lra. }
  destruct (Z.eqb_spec (Int_part w) (Z.of_nat (h_size c))) as [E|E]; intros Hr.
  - assert (W : w = K). { rewrite E, <- INR_IZR_INZ in B1. fold K in B1. lra. }
    split; [lia|]. rewrite E.
    replace (Z.to_nat (Z.of_nat (h_size c) - 1)) with (h_size c - 1)%nat by lia. split.
    + rewrite Ey, W, minus_INR by lia. change (INR 1) with 1. fold K. apply Rplus_le_compat_l, Rmult_le_compat_r; lra.
    + right. split; [lia|]. rewrite Ey, W. field. lra.
  - split; [lia|]. rewrite S_INR, INR_IZR_INZ, Z2Nat.id by lia. rewrite Ey. split.
    + apply Rplus_le_compat_l, Rmult_le_compat_r; lra.
    + left. apply Rplus_lt_compat_l, Rmult_lt_compat_r; lra.
Qed.

Lemma continuous_estimate t s1 s2 failure v (bin_of : R -> nat) :
  estimate_lower_bound estimate_continuous t s1 s2 failure = Ok (Some v) ->
  (forall x, in_bin (t_config t) (bin_of x) x) ->
  exists S : nat -> bool,
    (forall S' : nat -> bool, advantage (t_epsilon t) s1 s2 (fun x => S' (bin_of x)) <= advantage (t_epsilon t) s1 s2 (fun x => S (bin_of x)))
    /\ v = advantage (t_epsilon t) s1 s2 (fun x => S (bin_of x))
        - correction (h_original (t_config t)) (t_epsilon t) (h_size (t_config t)) (Nat.min (List.length s1) (List.length s2)) failure
            (fun i => empirical s1 (fun x => (bin_of x =? i)%nat)) (fun i => empirical s2 (fun x => (bin_of x =? i)%nat))
    /\ v < advantage (t_epsilon t) s1 s2 (fun x => S (bin_of x)).
Proof.
  intros Hv Hbo. destruct (estimate_inv _ _ _ _ _ _ Hv) as (p1 & p2 & E1 & E2).
  destruct (continuous_inv _ _ _ E1) as (N1 & Hk & Hm). destruct (continuous_inv _ _ _ E2) as (N2 & _ & _).
  assert (Hb := continuous_bins (t_config t) Hk Hm).
  assert (Eb : forall x, continuous_bin (t_config t) x = Z.of_nat (bin_of x)) by (intros x; apply bin_unique; auto).
  assert (O : forall s : list R, forall a, In a s -> True) by auto.
  destruct (estimate_value _ t _ _ s1 s2 failure Hb N1 N2 (O s1) (O s2) v Hv) as [Ev _].
  assert (Hc := correction_pos _ t _ _ s1 s2 failure Hb N1 N2 (O s1) (O s2)).
  assert (Hext : forall S : nat -> bool, advantage (t_epsilon t) s1 s2 (fun x => S (bin_of x))
      = advantage (t_epsilon t) s1 s2 (fun x => S (Z.to_nat (continuous_bin (t_config t) x)))).
  { intros S. apply advantage_ext. intros a _. rewrite Eb, Nat2Z.id. reflexivity. }
  assert (Hfr : forall s i, empirical s (fun x => (bin_of x =? i)%nat) = freq (continuous_bin (t_config t)) s i).
  { intros s i. rewrite <- emp_bin. unfold empirical. do 3 f_equal. apply filter_ext. intros x. rewrite Eb.
    destruct (Nat.eqb_spec (bin_of x) i), (Z.eqb_spec (Z.of_nat (bin_of x)) (Z.of_nat i)); try lia; reflexivity. }
  exists (best t (continuous_bin (t_config t)) s1 s2). rewrite Hext.
  assert (Ec : forall f1 f2 g1 g2 : nat -> R, (forall i, f1 i = g1 i) -> (forall i, f2 i = g2 i) ->
    correction (h_original (t_config t)) (t_epsilon t) (h_size (t_config t)) (Nat.min (List.length s1) (List.length s2)) failure f1 f2
    = correction (h_original (t_config t)) (t_epsilon t) (h_size (t_config t)) (Nat.min (List.length s1) (List.length s2)) failure g1 g2).
  { intros f1 f2 g1 g2 F1 F2. unfold correction.
    rewrite (rsum_ext (fun i => sqrt (f1 i)) (fun i => sqrt (g1 i))) by (intros; rewrite F1; reflexivity).
    rewrite (rsum_ext (fun i => sqrt (f2 i)) (fun i => sqrt (g2 i))) by (intros; rewrite F2; reflexivity). reflexivity. }
  split; [|split].
  - intros S'. rewrite Hext. apply (adv_max estimate_continuous t _ _ s1 s2 Hb N1 N2 (O s1) (O s2)).
  - rewrite Ev. f_equal. apply Ec; intros i; rewrite Hfr; reflexivity.
  - exact (sub_lt _ _ _ Ev Hc).
Qed.

(** Samples that look private are not rejected. *)
Lemma discrete_no_reject t s1 s2 failure :
  (forall S, empirical s1 S <= exp (t_epsilon t) * empirical s2 S + t_delta t) ->
  rejects (reject_property t) (estimate_lower_bound estimate_discrete t s1 s2 failure) = false.
Proof.
  intros H. destruct (estimate_lower_bound estimate_discrete t s1 s2 failure) as [[v|]|e] eqn:E; try reflexivity.
  destruct (discrete_estimate t s1 s2 failure v E) as (S & _ & _ & Hv). cbn [rejects reject_property]. apply Rleb_false.
  specialize (H S). unfold advantage in Hv. lra.
Qed.
Lemma continuous_no_reject t s1 s2 failure (bin_of : R -> nat) : (forall x, in_bin (t_config t) (bin_of x) x) ->
  (forall S, empirical s1 (fun x => S (bin_of x)) <= exp (t_epsilon t) * empirical s2 (fun x => S (bin_of x)) + t_delta t) ->
  rejects (reject_property t) (estimate_lower_bound estimate_continuous t s1 s2 failure) = false.
Proof.
  intros Hb H. destruct (estimate_lower_bound estimate_continuous t s1 s2 failure) as [[v|]|e] eqn:E; try reflexivity.
  destruct (continuous_estimate t s1 s2 failure v bin_of E Hb) as (S & _ & _ & Hv). cbn [rejects reject_property]. apply Rleb_false.
  specialize (H S). unfold advantage in Hv. lra.
Qed.
