(** The conversions between dictionaries and lists, and the convolutions of dictionaries. *)
From Verif Require Import Base XReal Exn PyDict ModelCommon ModelPmf SpecPmf SpecDict ProofDict ProofPmf ProofCompose2 ProofSelf.
Local Arguments Rltb : simpl never.
Local Arguments Rleb : simpl never.

Lemma total_nonneg l : good_list l -> 0 <= total_of l.
Proof. intros H. apply rsum_nonneg. exact H. Qed.
Lemma nth_nonneg l i : good_list l -> 0 <= nth i l 0.
Proof. intros H. destruct (nth_in_or_default i l 0) as [K| ->]; [apply H, K | lra]. Qed.

(** ** dictionary_to_list *)
Lemma to_list_ok d : NoDup (map fst d) -> d <> [] -> exists lo l, dictionary_to_list d = Ok (lo, l) /\
  (forall k, list_at l lo k = dget0 d k) /\ In lo (map fst d) /\ In (lo + Z.of_nat (length l) - 1)%Z (map fst d).
Proof.
  intros ND NE. destruct (dictionary_to_list d) as [[lo l]|] eqn:E.
  2:{ unfold dictionary_to_list in E. destruct d; [congruence | discriminate]. }
  exists lo, l. split; [reflexivity|]. destruct (dictionary_to_list_ok d lo l E) as (n & -> & Hn & HK & H1 & H2).
  rewrite map_length, zrange_length. split; [|auto]. intros k. unfold list_at. destruct (Z.ltb_spec k lo) as [L|L].
  - symmetry. apply dget0_not. intros K. apply HK, zrange_In in K. lia.
  - destruct (Nat.lt_ge_cases (Z.to_nat (k - lo)) n) as [B|B].
    + rewrite (nth_indep _ 0 (dget0 d 0)) by (rewrite map_length, zrange_length; assumption). rewrite map_nth. f_equal.
      rewrite zrange_map, (nth_indep _ 0%Z (lo + Z.of_nat 0)%Z) by (rewrite map_length, seq_length; assumption).
      rewrite (map_nth (fun i => (lo + Z.of_nat i)%Z)), seq_nth by assumption. lia.
    + rewrite nth_overflow by (rewrite map_length, zrange_length; assumption). symmetry. apply dget0_not. intros K. apply HK, zrange_In in K. lia.
Qed.
Lemma to_list_empty d : dictionary_to_list d = Err ValueError <-> d = [].
Proof. unfold dictionary_to_list. destruct d; cbn; split; congruence. Qed.

(** ** list_to_dictionary *)
Lemma skip_prefix_ok thr : forall l s, s <= thr -> let j := skip_prefix thr s l in
  (j <= length l)%nat /\ s + total_of (firstn j l) <= thr /\ ((j < length l)%nat -> thr < s + total_of (firstn (S j) l)).
Proof.
  induction l as [|x l IH]; intros s Hs; cbn [skip_prefix].
  - cbn. split; [lia|]. split; [unfold total_of; cbn; lra | lia].
  - destruct (Rltb_spec thr (s + x)) as [G|G]; cbv zeta.
    + split; [cbn; lia|]. split; [unfold total_of; cbn; lra|]. intros _. unfold total_of. cbn. lra.
    + destruct (IH (s + x) ltac:(lra)) as (A & B & C). cbv zeta in *. set (j := skip_prefix thr (s + x) l) in *.
      change (firstn (S j) (x :: l)) with (x :: firstn j l). change (firstn (S (S j)) (x :: l)) with (x :: firstn (S j) l).
      unfold total_of in *. cbn [length rsum]. split; [lia|]. split; [lra|]. intros H. assert (j < length l)%nat by lia. specialize (C H0). lra.
Qed.
Lemma total_rev l : total_of (rev l) = total_of l.
Proof. apply rsum_rev. Qed.

Lemma fill_ok (f : Z -> R) off zs : forall d, NoDup (keys d) ->
  let D := fold_left (fun d i => if Rltb 0 (f i) then dset d (i + off)%Z (f i) else d) zs d in
  NoDup (keys D) /\
  (forall k, In k (keys D) <-> In k (keys d) \/ (In (k - off)%Z zs /\ 0 < f (k - off)%Z)) /\
  (forall k, dget0 D k = if in_dec Z.eq_dec (k - off)%Z zs then if Rltb 0 (f (k - off)%Z) then f (k - off)%Z else dget0 d k else dget0 d k).
Proof.
  induction zs as [|z zs IH]; intros d ND; cbn [fold_left]; cbv zeta.
  - split; [assumption|]. split; [intros k; cbn; tauto | reflexivity].
  - set (d1 := if Rltb 0 (f z) then dset d (z + off)%Z (f z) else d).
    assert (ND1 : NoDup (keys d1)) by (unfold d1; destruct (Rltb 0 (f z)); [apply NoDup_dset|]; assumption).
    destruct (IH d1 ND1) as (A & B & C). split; [exact A|]. split.
    + intros k. rewrite B. unfold d1. destruct (Rltb_spec 0 (f z)) as [G|G].
      * rewrite keys_dset_In. cbn [In]. split.
        -- intros [[H| ->]|[H1 H2]]; [tauto | | tauto]. right. replace (z + off - off)%Z with z by lia. tauto.
        -- intros [H|[[H1|H1] H2]]; [tauto | | tauto]. left. right. lia.
      * cbn [In]. split; [tauto|]. intros [H|[[H1|H1] H2]]; [tauto | | tauto]. subst z. lra.
    + intros k. rewrite C. unfold d1. destruct (Z.eq_dec z (k - off)) as [E|E].
      * destruct (in_dec Z.eq_dec (k - off)%Z (z :: zs)) as [_|N]; [|exfalso; apply N; left; assumption].
        rewrite E. destruct (Rltb 0 (f (k - off)%Z)) eqn:G; [|destruct (in_dec _ _ _); reflexivity].
        rewrite dget0_dset. replace (k - off + off)%Z with k by lia. rewrite Z.eqb_refl. destruct (in_dec _ _ _); reflexivity.
      * assert (DK : dget0 (if Rltb 0 (f z) then dset d (z + off)%Z (f z) else d) k = dget0 d k).
        { destruct (Rltb 0 (f z)); [|reflexivity]. rewrite dget0_dset. destruct (Z.eqb_spec (z + off) k); [lia | reflexivity]. }
        rewrite DK. destruct (in_dec Z.eq_dec (k - off)%Z zs) as [I|I], (in_dec Z.eq_dec (k - off)%Z (z :: zs)) as [J|J]; try reflexivity.
        -- exfalso. apply J. right. assumption.
        -- exfalso. destruct J; [congruence | contradiction].
Qed.

Lemma to_dict_ok l off tail : good_list l -> 0 <= tail -> let D := list_to_dictionary l off tail in
  exists a b, (a <= length l)%nat /\ (b <= length l)%nat /\
    good_dict D /\ (forall k, In k (map fst D) <-> 0 < dget0 D k) /\
    (forall k, dget0 D k = if (off + Z.of_nat a <=? k)%Z && (k <? off + Z.of_nat b)%Z then list_at l off k else 0) /\
    total_of (firstn a l) <= tail / 2 /\ total_of (skipn b l) <= tail / 2 /\
    ((a < length l)%nat -> tail / 2 < total_of (firstn (S a) l)) /\ ((0 < b)%nat -> tail / 2 < total_of (skipn (b - 1) l)).
Proof.
  intros Hl Ht. cbv zeta. unfold list_to_dictionary. set (a := skip_prefix (tail / 2) 0 l). set (j := skip_prefix (tail / 2) 0 (rev l)).
  destruct (skip_prefix_ok (tail / 2) l 0 ltac:(lra)) as (A1 & A2 & A3). destruct (skip_prefix_ok (tail / 2) (rev l) 0 ltac:(lra)) as (B1 & B2 & B3).
  cbv zeta in *. fold a in A1, A2, A3. fold j in B1, B2, B3. rewrite rev_length in *.
  exists a, (length l - j)%nat. split; [assumption|]. split; [lia|].
  set (zs := zrange (Z.of_nat a) _).
  assert (ZS : forall z, In z zs <-> (Z.of_nat a <= z < Z.of_nat (length l - j))%Z) by (intros z; unfold zs; rewrite zrange_In; lia).
  destruct (fill_ok (fun i => nth (Z.to_nat i) l 0) off zs [] ltac:(constructor)) as (F1 & F2 & F3). cbv zeta in F1, F2, F3. cbn beta in *.
  set (D := fold_left (fun (d : dict) (i : Z) => if Rltb 0 (nth (Z.to_nat i) l 0) then dset d (i + off) (nth (Z.to_nat i) l 0) else d) zs []) in *. unfold keys in *.
  assert (GET : forall k, dget0 D k = if (off + Z.of_nat a <=? k)%Z && (k <? off + Z.of_nat (length l - j))%Z then list_at l off k else 0).
  { intros k. rewrite F3. change (dget0 [] k) with 0. unfold list_at.
    destruct (in_dec Z.eq_dec (k - off)%Z zs) as [I|I]; rewrite ZS in I.
    - rewrite (proj2 (Z.leb_le _ _)) by lia. rewrite (proj2 (Z.ltb_lt k (off + _))) by lia. rewrite (proj2 (Z.ltb_ge k off)) by lia. cbn [andb].
      pose proof (nth_nonneg l (Z.to_nat (k - off)) Hl). destruct (Rltb_spec 0 (nth (Z.to_nat (k - off)) l 0)); lra.
    - destruct (Z.leb_spec (off + Z.of_nat a) k); destruct (Z.ltb_spec k (off + Z.of_nat (length l - j))); cbn [andb]; try reflexivity. lia. }
  assert (KP : forall k, In k (map fst D) <-> 0 < dget0 D k).
  { intros k. rewrite F2, F3. change (dget0 [] k) with 0. cbn [map In]. destruct (in_dec Z.eq_dec (k - off)%Z zs) as [I|I].
    - destruct (Rltb_spec 0 (nth (Z.to_nat (k - off)) l 0)); split; try tauto; try lra; intros [H|[_ H]]; tauto || lra.
    - split; [tauto | lra]. }
  split.
  { split; [exact F1|]. intros [k v] Hkv. cbn [snd]. rewrite <- (dget0_In D k v F1 Hkv). left. apply KP. apply in_map_iff. exists (k, v). auto. }
  split; [exact KP|]. split; [exact GET|]. split; [lra|]. split; [|split].
  - rewrite firstn_rev, total_rev in B2. lra.
  - intros H. specialize (A3 H). lra.
  - intros H. assert (j < length l)%nat as Hj by lia. specialize (B3 Hj). rewrite firstn_rev, total_rev in B3. replace (length l - j - 1)%nat with (length l - S j)%nat by lia. lra.
Qed.

Lemma total_zero l i : good_list l -> total_of l <= 0 -> nth i l 0 = 0.
Proof.
  intros Hl. revert i. induction l as [|x l IH]; intros i H; [destruct i; reflexivity|]. unfold total_of in H. cbn [rsum] in H.
  assert (0 <= x) by (apply Hl; left; reflexivity). assert (Hl' : good_list l) by (intros y Hy; apply Hl; right; assumption).
  pose proof (total_nonneg l Hl'). unfold total_of in *. destruct i; cbn; [lra | apply IH; [assumption | lra]].
Qed.
Lemma to_dict_exact l off k : good_list l -> dget0 (list_to_dictionary l off 0) k = list_at l off k.
Proof.
  intros Hl. destruct (to_dict_ok l off 0 Hl ltac:(lra)) as (a & b & A & B & _ & _ & G & T1 & T2 & _). cbv zeta in *. rewrite G.
  assert (GF : good_list (firstn a l)) by (intros x Hx; apply Hl; rewrite <- (firstn_skipn a l); apply in_or_app; auto).
  assert (GS : good_list (skipn b l)) by (intros x Hx; apply Hl; rewrite <- (firstn_skipn b l); apply in_or_app; auto).
  unfold list_at. destruct (Z.leb_spec (off + Z.of_nat a) k) as [C|C]; cbn [andb].
  - destruct (Z.ltb_spec k (off + Z.of_nat b)) as [E|E]; [reflexivity|]. destruct (Z.ltb_spec k off); [reflexivity|].
    pose proof (total_zero (skipn b l) (Z.to_nat (k - off) - b) GS ltac:(lra)) as N. symmetry.
    rewrite <- (firstn_skipn b l). rewrite app_nth2; rewrite firstn_length_le by assumption; [exact N | lia].
  - destruct (Z.ltb_spec k off); [reflexivity|]. pose proof (total_zero (firstn a l) (Z.to_nat (k - off)) GF ltac:(lra)) as N. symmetry.
    rewrite <- (firstn_skipn a l). rewrite app_nth1; [exact N|]. rewrite firstn_length_le by assumption. lia.
Qed.
Lemma round_trip d lo l k : good_dict d -> dictionary_to_list d = Ok (lo, l) ->
  dget0 (list_to_dictionary l lo 0) k = dget0 d k.
Proof.
  intros [ND NN] H. assert (NE : d <> []) by (intros ->; discriminate).
  destruct (to_list_ok d ND NE) as (lo' & l' & E & V & _). rewrite H in E. injection E as <- <-. rewrite to_dict_exact; [apply V|].
  destruct (dictionary_to_list_ok d lo l H) as (n & -> & _). intros x Hx. apply in_map_iff in Hx. destruct Hx as (z & <- & _).
  apply (proj2 (nonneg_dict_iff d ND) NN).
Qed.
Lemma back_trip l off D lo l' : good_list l -> list_to_dictionary l off 0 = D -> dictionary_to_list D = Ok (lo, l') ->
  forall k, list_at l' lo k = list_at l off k.
Proof.
  intros Hl HD H k. destruct (to_dict_ok l off 0 Hl ltac:(lra)) as (a & b & _ & _ & G & _). cbv zeta in G. rewrite HD in G.
  assert (NE : D <> []) by (intros ->; discriminate).
  destruct (to_list_ok D (proj1 G) NE) as (lo0 & l0 & E & V & _). rewrite H in E. injection E as <- <-. rewrite V, <- HD. apply to_dict_exact, Hl.
Qed.

(** with negative entries (FFT rounding errors) positive entries get lost *)
Lemma negative_lost : dget0 (list_to_dictionary [-1; 1/2; 2] 5 0) 6 = 0 /\ list_at [-1; 1/2; 2] 5 6 = 1/2.
Proof.
  split; [|reflexivity]. unfold list_to_dictionary. cbn [rev app length skip_prefix].
  rewrite (Rltb_false (0 / 2) (0 + -1)) by lra. rewrite (Rltb_false (0 / 2) (0 + -1 + 1/2)) by lra. rewrite (Rltb_true (0 / 2) (0 + -1 + 1/2 + 2)) by lra.
  rewrite (Rltb_true (0 / 2) (0 + 2)) by lra. change (Z.to_nat (Z.of_nat 3 - 1 - Z.of_nat 0 + 1 - Z.of_nat 2)) with 1%nat. cbn [zrange fold_left].
  change (nth (Z.to_nat (Z.of_nat 2)) [-1; 1/2; 2] 0) with 2. rewrite Rltb_true by lra. reflexivity.
Qed.

(** ** convolutions *)
Lemma dsum_cover d ks g : NoDup (keys d) -> NoDup ks -> (forall k, In k (keys d) -> In k ks) ->
  dsum d g = rsum (fun k => dget0 d k * g k) ks.
Proof.
  intros ND NK H. transitivity (rsum (fun k => rsum (fun z => ind z k * (dget0 d z * g z)) (keys d)) ks).
  - rewrite rsum_swap. transitivity (rsum (fun k => dget0 d k * g k) (keys d)).
    + rewrite (rsum_keys d (fun k v => v * g k) ND). reflexivity.
    + apply rsum_ext. intros z Hz. rewrite rsum_scal_r. rewrite (rsum_ext _ (fun k => ind z k * 1)) by (intros; lra).
      rewrite (rsum_ext _ (fun k => ind k z * 1)) by (intros k _; unfold ind; rewrite Z.eqb_sym; reflexivity).
      rewrite (rsum_ind ks (fun _ => 1) z) by assumption. destruct (in_dec Z.eq_dec z ks); [lra | exfalso; auto].
  - apply rsum_ext. intros k _. rewrite (rsum_ext _ (fun z => ind z k * (dget0 d k * g k))).
    + rewrite rsum_scal_r. rewrite (rsum_ext _ (fun z => ind z k * 1)) by (intros; lra).
      rewrite (rsum_ind (keys d) (fun _ => 1) k) by assumption. destruct (in_dec Z.eq_dec k (keys d)); [lra|]. rewrite dget0_not by assumption. lra.
    + intros z _. unfold ind. destruct (Z.eqb_spec k z); [subst; reflexivity | lra].
Qed.

Lemma list_as_map l off : l = map (list_at l off) (zrange off (length l)).
Proof.
  apply (nth_ext _ _ 0 (list_at l off 0)); [rewrite map_length, zrange_length; reflexivity|]. intros i Hi. rewrite map_nth, zrange_map.
  rewrite (nth_indep _ 0%Z (off + Z.of_nat 0)%Z) by (rewrite map_length, seq_length; assumption).
  rewrite (map_nth (fun i => (off + Z.of_nat i)%Z)), seq_nth by assumption. unfold list_at.
  destruct (Z.ltb_spec (off + Z.of_nat (0 + i)) off); [lia|]. f_equal. lia.
Qed.
Lemma lsum_at l off g : lsum off l g = rsum (fun k => list_at l off k * g k) (zrange off (length l)).
Proof. rewrite (list_as_map l off) at 1. apply lsum_zrange. Qed.
Lemma lsum_below l off a : (a <= length l)%nat -> lsum off l (fun k => bz (k <? off + Z.of_nat a)%Z) = total_of (firstn a l).
Proof.
  intros H. rewrite <- (firstn_skipn a l) at 1. rewrite lsum_app, firstn_length_le by assumption.
  rewrite (lsum_ext _ (firstn a l) _ (fun _ => 1)), (lsum_ext _ (skipn a l) _ (fun _ => 0)).
  - rewrite !lsum_const. unfold total_of. lra.
  - intros z Hz. rewrite (proj2 (Z.ltb_ge _ _)) by lia. reflexivity.
  - intros z Hz. rewrite firstn_length_le in Hz by assumption. rewrite (proj2 (Z.ltb_lt _ _)) by lia. reflexivity.
Qed.
Lemma lsum_above l off b : (b <= length l)%nat -> lsum off l (fun k => bz (off + Z.of_nat b <=? k)%Z) = total_of (skipn b l).
Proof.
  intros H. rewrite <- (firstn_skipn b l) at 1. rewrite lsum_app, firstn_length_le by assumption.
  rewrite (lsum_ext _ (firstn b l) _ (fun _ => 0)), (lsum_ext _ (skipn b l) _ (fun _ => 1)).
  - rewrite !lsum_const. unfold total_of. lra.
  - intros z Hz. rewrite (proj2 (Z.leb_le _ _)) by lia. reflexivity.
  - intros z Hz. rewrite firstn_length_le in Hz by assumption. rewrite (proj2 (Z.leb_gt _ _)) by lia. reflexivity.
Qed.

Lemma to_dict_sum l off tail g : good_list l -> 0 <= tail -> (forall k, 0 <= g k <= 1) ->
  dsum (list_to_dictionary l off tail) g <= lsum off l g <= dsum (list_to_dictionary l off tail) g + tail.
Proof.
  intros Hl Ht Hg. destruct (to_dict_ok l off tail Hl Ht) as (a & b & A & B & [ND NN] & KP & G & T1 & T2 & _). cbv zeta in *.
  set (D := list_to_dictionary l off tail) in *.
  assert (E : dsum D g = lsum off l (fun k => bz ((off + Z.of_nat a <=? k)%Z && (k <? off + Z.of_nat b)%Z) * g k)).
  { rewrite (dsum_cover D (zrange off (length l)) g ND (zrange_NoDup _ _)).
    - rewrite lsum_at. apply rsum_ext. intros k _. rewrite G. destruct (_ && _); cbn [bz]; lra.
    - intros k Hk. apply KP in Hk. rewrite G in Hk. apply zrange_In. destruct (Z.leb_spec (off + Z.of_nat a) k), (Z.ltb_spec k (off + Z.of_nat b)); cbn [andb] in Hk; try lra. lia. }
  rewrite E. split.
  - apply lsum_le; [assumption|]. intros k _. specialize (Hg k). destruct (_ && _); cbn [bz]; lra.
  - rewrite <- (lsum_below l off a A) in T1. rewrite <- (lsum_above l off b B) in T2.
    eapply Rle_trans; [|apply Rplus_le_compat_l; replace tail with (tail / 2 + tail / 2) by lra; apply Rplus_le_compat; [exact T1 | exact T2]].
    rewrite <- !lsum_plus. apply lsum_le; [assumption|]. intros k _. specialize (Hg k).
    destruct (Z.leb_spec (off + Z.of_nat a) k), (Z.ltb_spec k (off + Z.of_nat a)), (Z.ltb_spec k (off + Z.of_nat b)), (Z.leb_spec (off + Z.of_nat b) k); try lia; cbn [andb bz]; lra.
Qed.

Lemma weight_dsum d S : weight d S = dsum d (fun k => bz (S k)).
Proof. apply rsum_ext. intros [k v] _. cbn [fst snd]. destruct (S k); cbn [bz]; lra. Qed.
Lemma weight_of_sum_dsum d1 d2 S : weight_of_sum d1 d2 S = dsum d1 (fun i => dsum d2 (fun j => bz (S (i + j)%Z))).
Proof.
  apply rsum_ext. intros [i x] _. cbn [fst snd]. unfold dsum. rewrite <- rsum_scal. apply rsum_ext. intros [j y] _. cbn [fst snd].
  destruct (S (i + j)%Z); cbn [bz]; lra.
Qed.
Lemma good_to_list d lo l : good_dict d -> dictionary_to_list d = Ok (lo, l) -> good_list l /\ forall g, lsum lo l g = dsum d g.
Proof.
  intros [ND NN] H. split; [|intros g; apply dictionary_to_list_sum; assumption].
  destruct (dictionary_to_list_ok d lo l H) as (n & -> & _). intros x Hx. apply in_map_iff in Hx. destruct Hx as (z & <- & _).
  apply (proj2 (nonneg_dict_iff d ND) NN).
Qed.
Lemma bz_range b : 0 <= bz b <= 1.
Proof. destruct b; cbn; lra. Qed.

Lemma convolve_dictionary_ok d1 d2 tail : good_dict d1 -> good_dict d2 -> d1 <> [] -> d2 <> [] -> 0 <= tail ->
  exists d, convolve_dictionary d1 d2 tail = Ok d /\ good_dict d /\
    forall S, weight d S <= weight_of_sum d1 d2 S <= weight d S + tail.
Proof.
  intros G1 G2 N1 N2 Ht. unfold convolve_dictionary.
  destruct (to_list_ok d1 (proj1 G1) N1) as (lo1 & l1 & E1 & _). destruct (to_list_ok d2 (proj1 G2) N2) as (lo2 & l2 & E2 & _).
  rewrite E1, E2. cbn [bind]. eexists. split; [reflexivity|].
  destruct (good_to_list _ _ _ G1 E1) as [L1 S1]. destruct (good_to_list _ _ _ G2 E2) as [L2 S2].
  pose proof (convolve_nonneg l1 l2 L1 L2) as LC.
  destruct (to_dict_ok _ (lo1 + lo2) tail LC Ht) as (a & b & _ & _ & GD & _). split; [exact GD|]. intros S.
  rewrite weight_dsum, weight_of_sum_dsum.
  pose proof (to_dict_sum (convolve l1 l2) (lo1 + lo2) tail (fun k => bz (S k)) LC Ht (fun k => bz_range (S k))) as B.
  rewrite convolve_lsum in B. rewrite S1 in B. rewrite (dsum_ext d1 (fun i => dsum d2 (fun j => bz (S (i + j)%Z))) (fun i => lsum lo2 l2 (fun j => bz (S (i + j)%Z)))); [exact B|].
  intros i. symmetry. apply S2.
Qed.

Lemma weight_of_sums_pown d n S base p : pmf_body p = Sparse d -> NoDup (map fst d) ->
  prob_sum (map fst d) (dget0 d) n (fun z => S (base + z)%Z) = pown p n (fun z => bz (S (base + z)%Z)).
Proof.
  intros E ND. revert base. induction n as [|n IH]; intros base.
  - cbn. unfold prob_sum. cbn. destruct (S (base + 0)%Z); cbn [bz]; lra.
  - cbn [pown]. unfold psum. rewrite E. unfold prob_sum. cbn [tuples]. rewrite rsum_flat_map, rsum_map. unfold dsum.
    apply rsum_ext. intros [k v] Hkv. cbn [fst snd]. rewrite rsum_map.
    rewrite (pown_ext p n _ (fun z => bz (S (base + k + z)%Z))) by (intros; f_equal; f_equal; lia).
    rewrite <- IH. unfold prob_sum. rewrite <- rsum_scal. apply rsum_ext. intros t _. cbn [zsum fold_right rprod].
    rewrite (dget0_In d k v ND Hkv). replace (base + (k + fold_right Z.add 0 t))%Z with (base + k + zsum t)%Z by (unfold zsum; lia).
    destruct (S (base + k + zsum t)%Z); [reflexivity | lra].
Qed.

Lemma self_convolve_dictionary_ok fast_len d n tail D : (forall k, (k <= fast_len k)%nat) -> good_dict d -> (0 <= n)%Z -> 0 <= tail ->
  self_convolve_dictionary fast_len d n tail = Ok D ->
  good_dict D /\ forall S, weight D S <= weight_of_sums d (Z.to_nat n) S + tail /\ weight_of_sums d (Z.to_nat n) S <= weight D S + tail.
Proof.
  intros Hf GD Hn Ht. unfold self_convolve_dictionary. destruct (dictionary_to_list d) as [[lo l]|] eqn:E; cbn [bind]; [|discriminate].
  destruct (self_convolve fast_len l n tail) as [[low out]|] eqn:EC; cbn [bind]; [|discriminate]. intros [= <-].
  destruct (good_to_list _ _ _ GD E) as [GL SL]. destruct (self_convolve_ok _ _ _ _ _ _ Hf GL Hn Ht EC) as [GO B].
  destruct (to_dict_ok out (lo * n + low) 0 GO ltac:(lra)) as (a & b & _ & _ & G & _). split; [exact G|]. intros S.
  specialize (B (lo * n)%Z (fun k => bz (S k)) 1 (fun z => bz_range (S z))). cbv zeta in B.
  pose proof (to_dict_sum out (lo * n + low) 0 (fun k => bz (S k)) GO ltac:(lra) (fun k => bz_range (S k))) as T. rewrite <- weight_dsum in T.
  assert (X : weight_of_sums d (Z.to_nat n) S = lsum 0 (conv_pow l (Z.to_nat n)) (fun m => bz (S (lo * n + m)%Z))).
  { unfold weight_of_sums. pose (p := mkPmf 1 0 true (Sparse d)). pose (q := mkPmf 1 0 true (Dense lo l)).
    transitivity (pown p (Z.to_nat n) (fun z => bz (S (0 + z)%Z))); [apply (weight_of_sums_pown d (Z.to_nat n) S 0 p eq_refl (proj1 GD))|].
    rewrite <- (pown_same p q) by (intros h; apply SL). rewrite (pown_dense q lo l _ _ eq_refl). apply lsum_ext. intros m _.
    rewrite Z2Nat.id by assumption. reflexivity. }
  rewrite X. lra.
Qed.

Lemma self_convolve_dictionary_total fast_len d n tail : good_dict d -> 0 <= tail -> 0 < weight d (fun _ => true) ->
  exists D, self_convolve_dictionary fast_len d n tail = Ok D.
Proof.
  intros GD Ht Hw. unfold self_convolve_dictionary. assert (NE : d <> []) by (intros ->; unfold weight in Hw; cbn in Hw; lra).
  destruct (to_list_ok d (proj1 GD) NE) as (lo & l & E & _). rewrite E. cbn [bind]. destruct (good_to_list _ _ _ GD E) as [GL SL].
  assert (M : 0 < total_of l). { rewrite weight_dsum, <- SL, lsum_const in Hw. unfold total_of. cbn [bz] in Hw. lra. }
  unfold self_convolve. destruct l as [|x l]; [unfold total_of in M; cbn in M; lra|].
  destruct (bounds_total (x :: l) n tail None GL M Ht) as [[b1 b2] ->]. cbn [bind]. eexists. reflexivity.
Qed.

(** ** Instances *)
Definition two_keys : dict := [(3%Z, 1/4); ((-2)%Z, 3/4)].
Lemma two_keys_good : good_dict two_keys.
Proof. split; [repeat constructor; cbn; lia|]. intros kv [<-|[<-|[]]]; cbn; lra. Qed.
Lemma two_keys_list : dictionary_to_list two_keys = Ok ((-2)%Z, [3/4; 0; 0; 0; 0; 1/4]).
Proof. reflexivity. Qed.
Lemma two_keys_weight : 0 < weight two_keys (fun _ => true).
Proof. unfold weight. cbn. lra. Qed.
Lemma truncates_example : good_list [1/8; 1/4; 1/2; 1/16] /\ list_to_dictionary [1/8; 1/4; 1/2; 1/16] (-1) (1/4) = [(0%Z, 1/4); (1%Z, 1/2)].
Proof.
  split; [intros x [<-|[<-|[<-|[<-|[]]]]]; lra|]. unfold list_to_dictionary. cbn [rev app length skip_prefix].
  rewrite (Rltb_false (1/4/2) (0 + 1/8)) by lra. rewrite (Rltb_true (1/4/2) (0 + 1/8 + 1/4)) by lra.
  rewrite (Rltb_false (1/4/2) (0 + 1/16)) by lra. rewrite (Rltb_true (1/4/2) (0 + 1/16 + 1/2)) by lra.
  change (Z.to_nat (Z.of_nat 4 - 1 - Z.of_nat 1 + 1 - Z.of_nat 1)) with 2%nat. cbn [zrange fold_left].
  change (nth (Z.to_nat (Z.of_nat 1)) [1/8; 1/4; 1/2; 1/16] 0) with (1/4). change (nth (Z.to_nat (Z.of_nat 1 + 1)) [1/8; 1/4; 1/2; 1/16] 0) with (1/2).
  rewrite !Rltb_true by lra. reflexivity.
Qed.
Lemma negative_refuted : ~ (forall l off k, 0 < list_at l off k -> dget0 (list_to_dictionary l off 0) k = list_at l off k).
Proof. intros H. destruct negative_lost as [A B]. specialize (H [-1; 1/2; 2] 5%Z 6%Z). rewrite A, B in H. lra. Qed.
