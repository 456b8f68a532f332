(** Lemmas about privacy loss pmfs. *)
From Verif Require Import Base XReal Exn PyDict ModelCommon ModelPmf SpecDP SpecPmf
  ProofDP ProofDict.
From Coq Require Import Permutation Sorted.

(** ** Representation independent sums *)
Definition psum (p : pmf) (g : Z -> R) : R :=
  match pmf_body p with Sparse d => dsum d g | Dense lo l => lsum lo l g end.

Lemma psum_losses p g : wf p ->
  rsum (fun kv => snd kv * g (fst kv)) (losses_probs p) = psum p g.
Proof.
  intros (_ & _ & _ & ND). unfold losses_probs, psum. destruct (pmf_body p) as [d|lo l].
  - rewrite rsum_map. cbn [fst snd].
    rewrite (rsum_zsort (fun k => dget0 d k * g k)).
    apply (rsum_keys d (fun k v => v * g k) ND).
  - apply lsum_items.
Qed.

Lemma nth_nonneg_In l : (forall j, 0 <= nth j l 0) <-> (forall x, In x l -> 0 <= x).
Proof.
  split.
  - intros H x Hx. destruct (In_nth l x 0 Hx) as (n & _ & <-). apply H.
  - intros H j. destruct (nth_in_or_default j l 0) as [Hi|E]; [auto | rewrite E; lra].
Qed.

Lemma wf_dense_nonneg p lo l : wf p -> pmf_body p = Dense lo l -> forall x, In x l -> 0 <= x.
Proof.
  intros (_ & _ & H & _) E. apply nth_nonneg_In. intros j.
  specialize (H (lo + Z.of_nat j)%Z). unfold mass in H. rewrite E in H.
  destruct (Z.ltb_spec (lo + Z.of_nat j) lo); [lia|].
  replace (Z.to_nat (lo + Z.of_nat j - lo)) with j in H by lia. exact H.
Qed.

Lemma wf_dense disc inf pess lo l :
  0 < disc -> 0 <= inf -> (forall x, In x l -> 0 <= x) -> wf (mkPmf disc inf pess (Dense lo l)).
Proof.
  intros Hd Hi Hl. split; [exact Hd|]. split; [exact Hi|]. split; [|exact I].
  intros k. unfold mass. cbn [pmf_body]. destruct (k <? lo)%Z; [lra|].
  apply nth_nonneg_In. exact Hl.
Qed.

Lemma psum_le p g h : wf p -> (forall k, g k <= h k) -> psum p g <= psum p h.
Proof.
  intros W H. pose proof W as (_ & _ & Hm & ND). unfold psum.
  destruct (pmf_body p) as [d|lo l] eqn:E.
  - apply rsum_le. intros [k v] Hin. simpl. apply Rmult_le_compat_l; [|apply H].
    specialize (Hm k). unfold mass in Hm. rewrite E in Hm.
    rewrite (dget0_In d k v) in Hm; auto.
  - apply lsum_le; [|intros; apply H]. eapply wf_dense_nonneg; eassumption.
Qed.

Lemma psum_ext p g h : (forall k, g k = h k) -> psum p g = psum p h.
Proof.
  intros H. unfold psum. destruct (pmf_body p) as [d|lo l].
  - apply dsum_ext; assumption.
  - apply lsum_ext; intros; apply H.
Qed.

Lemma psum_scal p c g : psum p (fun k => c * g k) = c * psum p g.
Proof.
  unfold psum. destruct (pmf_body p) as [d|lo l].
  - unfold dsum. rewrite <- rsum_scal. apply rsum_ext. intros; lra.
  - apply lsum_scal.
Qed.

Lemma psum_plus p g h : psum p (fun k => g k + h k) = psum p g + psum p h.
Proof.
  unfold psum. destruct (pmf_body p) as [d|lo l].
  - unfold dsum. rewrite <- rsum_plus. apply rsum_ext. intros; lra.
  - apply lsum_plus.
Qed.

Lemma psum_nonneg p g : wf p -> (forall k, 0 <= g k) -> 0 <= psum p g.
Proof.
  intros W H. apply Rle_trans with (psum p (fun _ => 0 * 0)).
  - rewrite psum_scal. lra.
  - apply psum_le; [assumption|]. intros k. specialize (H k). lra.
Qed.

Lemma psum_rsum {A} p (f : Z -> A -> R) (l : list A) :
  psum p (fun k => rsum (fun x => f k x) l) = rsum (fun x => psum p (fun k => f k x)) l.
Proof.
  induction l as [|x l IH]; cbn [rsum].
  - replace (psum p (fun _ => 0)) with (psum p (fun _ => 0 * 0)) by (apply psum_ext; intros; lra).
    rewrite psum_scal. lra.
  - rewrite psum_plus, IH. reflexivity.
Qed.

Definition ind (k z : Z) : R := if (z =? k)%Z then 1 else 0.

Lemma lsum_ind lo l k :
  lsum lo l (ind k) = if (k <? lo)%Z then 0 else nth (Z.to_nat (k - lo)) l 0.
Proof.
  revert lo. induction l as [|x l IH]; intros lo; cbn [lsum].
  - destruct (k <? lo)%Z; [reflexivity|]. destruct (Z.to_nat (k - lo)); reflexivity.
  - rewrite IH. unfold ind. destruct (Z.eqb_spec lo k) as [->|Hne].
    + destruct (Z.ltb_spec k (k + 1)); [|lia]. destruct (Z.ltb_spec k k); [lia|].
      replace (Z.to_nat (k - k)) with 0%nat by lia. simpl. lra.
    + destruct (Z.ltb_spec k lo).
      * destruct (Z.ltb_spec k (lo + 1)); [lra | lia].
      * destruct (Z.ltb_spec k (lo + 1)); [lia|].
        replace (Z.to_nat (k - lo)) with (S (Z.to_nat (k - (lo + 1)))) by lia. simpl. lra.
Qed.

Lemma dsum_ind d k : NoDup (keys d) -> dsum d (ind k) = dget0 d k.
Proof.
  intros ND. unfold dsum. induction d as [|[k0 v0] d IH]; simpl; [reflexivity|].
  inversion ND; subst. rewrite IH by assumption. unfold ind.
  destruct (Z.eqb_spec k0 k) as [->|Hne].
  - unfold dget0 at 2. simpl. rewrite Z.eqb_refl. rewrite (dget0_not d k) by assumption. lra.
  - unfold dget0 at 2. simpl. destruct (Z.eqb_spec k0 k); [contradiction|].
    unfold dget0. lra.
Qed.

Lemma mass_psum p k : wf p -> mass p k = psum p (ind k).
Proof.
  intros (_ & _ & _ & ND). unfold mass, psum. destruct (pmf_body p) as [d|lo l].
  - symmetry. apply dsum_ind; assumption.
  - symmetry. apply lsum_ind.
Qed.

Lemma rsum_ind ks (g : Z -> R) z : NoDup ks ->
  rsum (fun k => ind k z * g k) ks = if in_dec Z.eq_dec z ks then g z else 0.
Proof.
  induction ks as [|k ks IH]; intros ND; cbn [rsum].
  - destruct (in_dec Z.eq_dec z []) as [[]|]; reflexivity.
  - inversion ND; subst. rewrite IH by assumption. unfold ind.
    destruct (Z.eqb_spec z k) as [->|Hne].
    + destruct (in_dec Z.eq_dec k ks); [contradiction|].
      destruct (in_dec Z.eq_dec k (k :: ks)) as [_|n0]; [lra|]. exfalso; apply n0; left; reflexivity.
    + destruct (in_dec Z.eq_dec z ks), (in_dec Z.eq_dec z (k :: ks)); simpl in *; try lra.
      * exfalso; tauto.
      * exfalso. destruct i; [congruence | contradiction].
Qed.

Lemma psum_restrict p g h : wf p -> (forall k, mass p k <> 0 -> g k = h k) -> psum p g = psum p h.
Proof.
  intros W H. pose proof W as (_ & _ & Hm & ND). unfold psum, mass in *.
  destruct (pmf_body p) as [d|lo l] eqn:E.
  - apply rsum_ext. intros [k v] Hin. simpl. specialize (H k).
    rewrite (dget0_In d k v) in H by auto.
    destruct (Req_dec v 0) as [->|]; [lra | rewrite H; auto].
  - rewrite !lsum_seq. apply rsum_ext. intros i Hi. apply in_seq in Hi.
    specialize (H (lo + Z.of_nat i)%Z).
    destruct (Z.ltb_spec (lo + Z.of_nat i) lo); [lia|].
    replace (Z.to_nat (lo + Z.of_nat i - lo)) with i in H by lia.
    destruct (Req_dec (nth i l 0) 0) as [->|]; [lra | rewrite H; auto].
Qed.

Lemma psum_covers p ks g : wf p -> covers ks p ->
  psum p g = rsum (fun k => mass p k * g k) ks.
Proof.
  intros W [ND C].
  transitivity (psum p (fun z => rsum (fun k => ind k z * g k) ks)).
  - apply psum_restrict; [assumption|]. intros z Hz. rewrite rsum_ind by assumption.
    destruct (in_dec Z.eq_dec z ks) as [|n]; [reflexivity|]. exfalso; apply n, C, Hz.
  - rewrite psum_rsum. apply rsum_ext. intros k _. rewrite mass_psum by assumption.
    rewrite Rmult_comm, <- psum_scal. apply psum_ext. intros; lra.
Qed.

(** every pmf has a covering list *)
Definition support (p : pmf) : list Z :=
  match pmf_body p with Sparse d => map fst d | Dense lo l => zrange lo (length l) end.

Lemma support_covers p : wf p -> covers (support p) p.
Proof.
  intros (_ & _ & _ & ND). unfold support, covers, mass. destruct (pmf_body p) as [d|lo l].
  - split; [assumption|]. intros k Hk. apply dget0_Some_in. assumption.
  - split; [apply zrange_NoDup|]. intros k Hk. apply zrange_In.
    destruct (Z.ltb_spec k lo); [contradiction|].
    destruct (Z.lt_ge_cases (k - lo) (Z.of_nat (length l))); [lia|].
    rewrite nth_overflow in Hk by lia. contradiction.
Qed.

Definition total (p : pmf) : R := psum p (fun _ => 1) + infinity_mass p.

Lemma proper_total p : proper p <-> wf p /\ total p = 1.
Proof.
  split.
  - intros [W H]. split; [assumption|]. unfold total.
    rewrite (psum_covers p (support p)) by (auto; apply support_covers; assumption).
    etransitivity; [|exact (H (support p) (support_covers p W))]. f_equal. apply rsum_ext; intros; lra.
  - intros [W H]. split; [assumption|]. intros ks C. etransitivity; [|exact H]. unfold total.
    rewrite (psum_covers p ks) by auto. f_equal. apply rsum_ext; intros; lra.
Qed.

(** ** delta as a test function *)
Definition ptest (p : pmf) (g : Z -> R) (G : R) : R := psum p g + infinity_mass p * G.

Definition hgain (disc e : R) (k : Z) : R := pos (1 - exp (e - IZR k * disc)).

Lemma pmf_delta_psum p e : wf p ->
  pmf_delta p (Fin e) = ptest p (hgain (discretization p) e) 1.
Proof.
  intros W. unfold pmf_delta, delta_for_epsilon, ptest.
  rewrite <- psum_losses by assumption. rewrite rsum_filter. unfold loss_floats.
  rewrite rsum_map. cbn [fst snd]. rewrite Rmult_1_r, Rplus_comm. f_equal.
  apply rsum_ext. intros [k v] _. cbn [fst snd]. unfold hgain. rcase.
  - rewrite pos_eq; [lra|].
    assert (exp (e - IZR k * discretization p) < exp 0) by (apply exp_increasing; lra).
    rewrite exp_0 in *. lra.
  - rewrite pos_0; [lra|].
    assert (exp 0 <= exp (e - IZR k * discretization p)) by (apply exp_le; lra).
    rewrite exp_0 in *. lra.
Qed.

Lemma pmf_delta_minf p : wf p -> pmf_delta p MInf = total p.
Proof.
  intros W. unfold pmf_delta, delta_for_epsilon, total. rewrite Rplus_comm. f_equal.
  rewrite <- psum_losses by assumption. unfold loss_floats. rewrite rsum_map. cbn [snd].
  apply rsum_ext. intros; lra.
Qed.

Lemma hgain_mono disc e : 0 < disc -> forall i j, (i <= j)%Z -> hgain disc e i <= hgain disc e j.
Proof.
  intros Hd i j Hij. apply pos_le.
  assert (exp (e - IZR j * disc) <= exp (e - IZR i * disc)); [|lra].
  apply exp_le. apply IZR_le in Hij. nra.
Qed.
Lemma hgain_nonneg disc e k : 0 <= hgain disc e k.
Proof. apply pos_nonneg. Qed.
Lemma hgain_le_1 disc e k : hgain disc e k <= 1.
Proof. apply pos_le_bound; [lra|]. pose proof (exp_pos (e - IZR k * disc)). lra. Qed.
