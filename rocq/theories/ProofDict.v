(** Lemmas about dictionaries, sorting, list/dictionary conversion and
    convolution, phrased through sums of test functions. *)
From Verif Require Import Base XReal Exn PyDict ModelCommon.
From Coq Require Import Permutation Sorted.

Definition keys (d : dict) : list Z := map fst d.
Definition dsum (d : dict) (g : Z -> R) : R := rsum (fun kv => snd kv * g (fst kv)) d.

(** ** sums over [seq] *)
Lemma rsum_seq_S f n : rsum f (seq 0 (S n)) = rsum f (seq 0 n) + f n.
Proof. rewrite seq_S, rsum_app. simpl. lra. Qed.

Lemma rsum_seq_shift f a n : rsum f (seq (S a) n) = rsum (fun i => f (S i)) (seq a n).
Proof. rewrite <- seq_shift, rsum_map. reflexivity. Qed.

Lemma rsum_seq_cons f n : rsum f (seq 0 (S n)) = f 0%nat + rsum (fun i => f (S i)) (seq 0 n).
Proof. cbn [seq rsum]. rewrite rsum_seq_shift. reflexivity. Qed.

Lemma rsum_seq_extend f n m : (n <= m)%nat ->
  (forall i, (n <= i < m)%nat -> f i = 0) -> rsum f (seq 0 m) = rsum f (seq 0 n).
Proof.
  intros Hle. induction Hle as [|m Hle IH]; intros H; [reflexivity|].
  rewrite rsum_seq_S, IH, H; [lra | lia |]. intros; apply H; lia.
Qed.

Lemma rsum_triangle (F : nat -> nat -> R) N :
  rsum (fun k => rsum (fun i => F i (k - i)%nat) (seq 0 (S k))) (seq 0 N) =
  rsum (fun i => rsum (fun j => F i j) (seq 0 (N - i))) (seq 0 N).
Proof.
  induction N as [|N IH]; [reflexivity|].
  rewrite rsum_seq_S, IH.
  rewrite (rsum_seq_S (fun i => rsum (fun j => F i j) (seq 0 (S N - i)))).
  replace (S N - N)%nat with 1%nat by lia.
  rewrite (rsum_seq_S (fun i => F i (N - i)%nat)).
  replace (N - N)%nat with 0%nat by lia.
  replace (rsum (fun j : nat => F N j) (seq 0 1)) with (F N 0%nat) by (simpl; lra).
  assert (E : rsum (fun i => rsum (fun j => F i j) (seq 0 (S N - i))) (seq 0 N) =
    rsum (fun i => rsum (fun j => F i j) (seq 0 (N - i))) (seq 0 N) +
    rsum (fun i => F i (N - i)%nat) (seq 0 N)).
  { rewrite <- rsum_plus. apply rsum_ext. intros i Hi. apply in_seq in Hi.
    replace (S N - i)%nat with (S (N - i)) by lia. apply rsum_seq_S. }
  lra.
Qed.

(** ** zrange *)
Lemma zrange_length a n : length (zrange a n) = n.
Proof. revert a; induction n; simpl; auto. Qed.

Lemma zrange_In a n z : In z (zrange a n) <-> (a <= z < a + Z.of_nat n)%Z.
Proof.
  revert a. induction n as [|n IH]; intros a.
  - simpl. lia.
  - cbn [zrange In]. rewrite IH, Nat2Z.inj_succ. lia.
Qed.

Lemma zrange_map a n : zrange a n = map (fun i => (a + Z.of_nat i)%Z) (seq 0 n).
Proof.
  revert a. induction n as [|n IH]; intros a; [reflexivity|].
  cbn [zrange seq map]. f_equal; [lia|]. rewrite IH, <- seq_shift, map_map.
  apply map_ext. intros. lia.
Qed.

Lemma zrange_NoDup a n : NoDup (zrange a n).
Proof.
  revert a. induction n as [|n IH]; intros a; constructor; auto.
  rewrite zrange_In. lia.
Qed.

Lemma zrange_app a n m : zrange a (n + m) = zrange a n ++ zrange (a + Z.of_nat n) m.
Proof.
  revert a. induction n as [|n IH]; intros a.
  - simpl. f_equal. lia.
  - cbn [zrange Nat.add app]. rewrite IH. do 2 f_equal. f_equal. lia.
Qed.

Lemma zrange_sorted a n : StronglySorted Z.lt (zrange a n).
Proof.
  revert a. induction n as [|n IH]; intros a; constructor; auto.
  apply Forall_forall. intros z Hz. apply zrange_In in Hz. lia.
Qed.

(** ** lists starting at an offset *)
Fixpoint lsum (lo : Z) (l : list R) (g : Z -> R) : R :=
  match l with [] => 0 | x :: l => x * g lo + lsum (lo + 1) l g end.

Lemma lsum_items lo l g :
  rsum (fun kv => snd kv * g (fst kv)) (combine (zrange lo (length l)) l) = lsum lo l g.
Proof.
  revert lo. induction l as [|x l IH]; intros lo; [reflexivity|].
  cbn [length zrange combine rsum lsum fst snd]. rewrite IH. reflexivity.
Qed.

Lemma lsum_seq lo l g :
  lsum lo l g = rsum (fun i => nth i l 0 * g (lo + Z.of_nat i)%Z) (seq 0 (length l)).
Proof.
  revert lo. induction l as [|x l IH]; intros lo; [reflexivity|].
  cbn [lsum length]. rewrite rsum_seq_cons, IH. cbn [nth]. f_equal.
  - do 2 f_equal. lia.
  - apply rsum_ext. intros i _. do 2 f_equal. lia.
Qed.

Lemma lsum_seq_ge lo l g N : (length l <= N)%nat ->
  lsum lo l g = rsum (fun i => nth i l 0 * g (lo + Z.of_nat i)%Z) (seq 0 N).
Proof.
  intros H. rewrite lsum_seq. symmetry. apply rsum_seq_extend; [assumption|].
  intros i Hi. rewrite nth_overflow by lia. lra.
Qed.

Lemma lsum_map_seq lo (f : nat -> R) g n :
  lsum lo (map f (seq 0 n)) g = rsum (fun i => f i * g (lo + Z.of_nat i)%Z) (seq 0 n).
Proof.
  rewrite lsum_seq, map_length, seq_length. apply rsum_ext. intros i Hi.
  apply in_seq in Hi. f_equal.
  rewrite (nth_indep _ 0 (f 0%nat)) by (rewrite map_length, seq_length; lia).
  rewrite map_nth, seq_nth by lia. reflexivity.
Qed.

Lemma lsum_app lo l1 l2 g :
  lsum lo (l1 ++ l2) g = lsum lo l1 g + lsum (lo + Z.of_nat (length l1)) l2 g.
Proof.
  revert lo. induction l1 as [|x l1 IH]; intros lo.
  - simpl. rewrite Z.add_0_r. lra.
  - cbn [app lsum length]. rewrite IH, Nat2Z.inj_succ.
    replace (lo + Z.succ (Z.of_nat (length l1)))%Z with (lo + 1 + Z.of_nat (length l1))%Z by lia.
    lra.
Qed.

Lemma lsum_ext lo l g h :
  (forall z, (lo <= z < lo + Z.of_nat (length l))%Z -> g z = h z) -> lsum lo l g = lsum lo l h.
Proof.
  intros H. rewrite !lsum_seq. apply rsum_ext. intros i Hi. apply in_seq in Hi.
  f_equal. apply H. lia.
Qed.

Lemma lsum_le lo l g h :
  (forall x, In x l -> 0 <= x) ->
  (forall z, (lo <= z < lo + Z.of_nat (length l))%Z -> g z <= h z) ->
  lsum lo l g <= lsum lo l h.
Proof.
  intros Hp H. rewrite !lsum_seq. apply rsum_le. intros i Hi. apply in_seq in Hi.
  apply Rmult_le_compat_l; [|apply H; lia]. apply Hp, nth_In. lia.
Qed.

Lemma lsum_nonneg lo l g :
  (forall x, In x l -> 0 <= x) ->
  (forall z, (lo <= z < lo + Z.of_nat (length l))%Z -> 0 <= g z) -> 0 <= lsum lo l g.
Proof.
  intros Hp H. rewrite lsum_seq. apply rsum_nonneg. intros i Hi. apply in_seq in Hi.
  apply Rmult_le_pos; [|apply H; lia]. apply Hp, nth_In. lia.
Qed.

Lemma lsum_const lo l c : lsum lo l (fun _ => c) = rsum (fun x => x) l * c.
Proof. revert lo. induction l as [|x l IH]; intros; simpl; [lra|]. rewrite IH. lra. Qed.

Lemma lsum_scal lo l c g : lsum lo l (fun z => c * g z) = c * lsum lo l g.
Proof. revert lo. induction l as [|x l IH]; intros; simpl; [lra|]. rewrite IH. lra. Qed.

Lemma lsum_plus lo l g h : lsum lo l (fun z => g z + h z) = lsum lo l g + lsum lo l h.
Proof. revert lo. induction l as [|x l IH]; intros; simpl; [lra|]. rewrite IH. lra. Qed.

Lemma lsum_shift lo l g s : lsum (lo + s) l g = lsum lo l (fun z => g (z + s)%Z).
Proof.
  revert lo. induction l as [|x l IH]; intros; simpl; [lra|].
  rewrite <- IH. do 2 f_equal. lia.
Qed.

(** ** convolution *)
Lemma convolve_length l1 l2 : l1 <> [] -> l2 <> [] ->
  length (convolve l1 l2) = (length l1 + length l2 - 1)%nat.
Proof.
  intros H1 H2. destruct l1; [contradiction|]. destruct l2; [contradiction|].
  unfold convolve. rewrite map_length, seq_length. reflexivity.
Qed.

Lemma convolve_nil l : convolve l [] = [].
Proof. destruct l; reflexivity. Qed.

Lemma convolve_lsum lo1 lo2 l1 l2 g :
  lsum (lo1 + lo2) (convolve l1 l2) g =
  lsum lo1 l1 (fun i => lsum lo2 l2 (fun j => g (i + j)%Z)).
Proof.
  destruct l1 as [|x1 l1']; [reflexivity|].
  destruct l2 as [|x2 l2'].
  { symmetry. rewrite lsum_seq. apply rsum_zero. intros; simpl; lra. }
  set (l1 := x1 :: l1') in *. set (l2 := x2 :: l2') in *.
  assert (H1 : (1 <= length l1)%nat) by (simpl; lia).
  assert (H2 : (1 <= length l2)%nat) by (simpl; lia).
  change (convolve l1 l2) with
    (map (fun k => rsum (fun i => nth i l1 0 * nth (k - i) l2 0) (seq 0 (S k)))
         (seq 0 (length l1 + length l2 - 1))).
  set (N := (length l1 + length l2 - 1)%nat).
  rewrite lsum_map_seq.
  pose (F := fun i j => nth i l1 0 * nth j l2 0 * g (lo1 + lo2 + Z.of_nat (i + j))%Z).
  transitivity (rsum (fun k => rsum (fun i => F i (k - i)%nat) (seq 0 (S k))) (seq 0 N)).
  { apply rsum_ext. intros k _. rewrite <- rsum_scal_r. apply rsum_ext.
    intros i Hi. apply in_seq in Hi. unfold F.
    replace (i + (k - i))%nat with k by lia. reflexivity. }
  rewrite rsum_triangle.
  rewrite (lsum_seq_ge lo1 l1 _ N) by lia.
  apply rsum_ext. intros i Hi. apply in_seq in Hi.
  destruct (Nat.lt_ge_cases i (length l1)) as [Hlt|Hge].
  - rewrite (lsum_seq_ge lo2 l2 _ (N - i)) by lia.
    rewrite <- rsum_scal. apply rsum_ext. intros j _. unfold F.
    replace (lo1 + lo2 + Z.of_nat (i + j))%Z with (lo1 + Z.of_nat i + (lo2 + Z.of_nat j))%Z by lia.
    lra.
  - rewrite nth_overflow by assumption. rewrite Rmult_0_l. apply rsum_zero.
    intros; unfold F. rewrite (nth_overflow l1) by assumption. lra.
Qed.

Lemma convolve_nonneg l1 l2 :
  (forall x, In x l1 -> 0 <= x) -> (forall x, In x l2 -> 0 <= x) ->
  forall x, In x (convolve l1 l2) -> 0 <= x.
Proof.
  intros H1 H2 x Hx. destruct l1 as [|x1 l1']; [contradiction|].
  destruct l2 as [|x2 l2']; [contradiction|].
  unfold convolve in Hx. apply in_map_iff in Hx. destruct Hx as (k & <- & _).
  apply rsum_nonneg. intros i _.
  assert (N : forall l j, (forall x, In x l -> 0 <= x) -> 0 <= nth j l 0).
  { intros l j H. destruct (nth_in_or_default j l 0) as [Hin|Hd]; [auto | rewrite Hd; lra]. }
  apply Rmult_le_pos; apply N; assumption.
Qed.

(** ** dictionaries *)
Lemma dget_In d k v : NoDup (keys d) -> In (k, v) d -> dget d k = Some v.
Proof.
  induction d as [|[k' v'] d IH]; simpl; intros ND H; [contradiction|].
  inversion ND; subst. destruct H as [H|H].
  - injection H as -> ->. rewrite Z.eqb_refl. reflexivity.
  - destruct (Z.eqb_spec k' k) as [->|]; [|auto].
    exfalso. apply H2. apply in_map_iff. exists (k, v). auto.
Qed.

Lemma dget_None d k : ~ In k (keys d) -> dget d k = None.
Proof.
  induction d as [|[k' v'] d IH]; simpl; intros H; [reflexivity|].
  destruct (Z.eqb_spec k' k); [exfalso; auto | auto].
Qed.

Lemma dget0_In d k v : NoDup (keys d) -> In (k, v) d -> dget0 d k = v.
Proof. intros ND H. unfold dget0. rewrite (dget_In d k v); auto. Qed.

Lemma dget0_not d k : ~ In k (keys d) -> dget0 d k = 0.
Proof. intros H. unfold dget0. rewrite dget_None; auto. Qed.

Lemma dget0_Some_in d k : dget0 d k <> 0 -> In k (keys d).
Proof.
  intros H. destruct (in_dec Z.eq_dec k (keys d)); [assumption|].
  rewrite dget0_not in H by assumption; lra.
Qed.

Lemma keys_dset d k v : keys (dset d k v) = keys d \/ (keys (dset d k v) = keys d ++ [k] /\ ~ In k (keys d)).
Proof.
  induction d as [|[k' v'] d IH]; simpl; [right; split; auto|].
  destruct (Z.eqb_spec k' k) as [->|Hne]; [left; reflexivity|].
  simpl. destruct IH as [->|[-> Hn]]; [left; reflexivity | right; split; auto].
  intros [H|H]; auto.
Qed.

Lemma NoDup_dset d k v : NoDup (keys d) -> NoDup (keys (dset d k v)).
Proof.
  intros H. destruct (keys_dset d k v) as [->|[-> Hn]]; [assumption|].
  clear -H Hn. induction (keys d) as [|x l IH]; simpl.
  - constructor; [intros []|constructor].
  - inversion H; subst. constructor.
    + intros Hin. apply in_app_or in Hin. destruct Hin as [|[<-|[]]]; auto.
      apply Hn. left; reflexivity.
    + apply IH; auto. intros Hi; apply Hn; right; assumption.
Qed.

Lemma dget0_dset d k v k' : dget0 (dset d k v) k' = if (k =? k')%Z then v else dget0 d k'.
Proof.
  unfold dget0. induction d as [|[k0 v0] d IH]; simpl.
  - destruct (k =? k')%Z; reflexivity.
  - destruct (Z.eqb_spec k0 k) as [->|Hne]; simpl.
    + destruct (k =? k')%Z; reflexivity.
    + destruct (Z.eqb_spec k0 k') as [->|]; [|assumption].
      destruct (Z.eqb_spec k k'); [congruence | reflexivity].
Qed.

Lemma dsum_dset d k v g : NoDup (keys d) ->
  dsum (dset d k v) g = dsum d g + (v - dget0 d k) * g k.
Proof.
  unfold dsum. induction d as [|[k0 v0] d IH]; simpl; intros ND.
  - unfold dget0; simpl. lra.
  - inversion ND; subst. destruct (Z.eqb_spec k0 k) as [->|Hne]; simpl.
    + unfold dget0; simpl. rewrite Z.eqb_refl. lra.
    + rewrite IH by assumption. unfold dget0. simpl.
      destruct (Z.eqb_spec k0 k); [contradiction|]. lra.
Qed.

Lemma dsum_dadd d k v g : NoDup (keys d) -> dsum (dadd d k v) g = dsum d g + v * g k.
Proof. intros ND. unfold dadd. rewrite dsum_dset by assumption. lra. Qed.

Lemma NoDup_dadd d k v : NoDup (keys d) -> NoDup (keys (dadd d k v)).
Proof. apply NoDup_dset. Qed.

Lemma keys_dset_In d k v k' : In k' (keys (dset d k v)) <-> In k' (keys d) \/ k' = k.
Proof.
  induction d as [|[k0 v0] d IH]; simpl; [intuition|].
  destruct (Z.eqb_spec k0 k) as [->|]; simpl.
  - intuition.
  - rewrite IH. intuition.
Qed.

Lemma keys_dadd_In d k v k' : In k' (keys (dadd d k v)) <-> In k' (keys d) \/ k' = k.
Proof. apply keys_dset_In. Qed.

(** the values of a dictionary read back through [dget0] *)
Lemma rsum_keys d (f : Z -> R -> R) : NoDup (keys d) ->
  rsum (fun k => f k (dget0 d k)) (keys d) = rsum (fun kv => f (fst kv) (snd kv)) d.
Proof.
  intros ND. unfold keys. rewrite rsum_map. apply rsum_ext. intros [k v] Hin.
  simpl. rewrite (dget0_In d k v); auto.
Qed.

Definition nonneg_dict (d : dict) := forall k, 0 <= dget0 d k.

Lemma nonneg_dict_iff d : NoDup (keys d) ->
  (nonneg_dict d <-> forall kv, In kv d -> 0 <= snd kv).
Proof.
  intros ND. split.
  - intros H [k v] Hin. rewrite <- (dget0_In d k v); auto. apply H.
  - intros H k. unfold dget0. destruct (dget d k) as [v|] eqn:E; [|lra].
    apply (H (k, v)). clear -E. induction d as [|[k0 v0] d IH]; simpl in *; [discriminate|].
    destruct (Z.eqb_spec k0 k) as [->|]; [injection E as ->; auto | auto].
Qed.

(** sorting *)
Lemma zinsert_perm k l : Permutation (zinsert k l) (k :: l).
Proof.
  induction l as [|x l IH]; simpl; [apply Permutation_refl|].
  destruct (k <=? x)%Z; [apply Permutation_refl|].
  eapply Permutation_trans; [apply perm_skip, IH | apply perm_swap].
Qed.

Lemma zsort_perm l : Permutation (zsort l) l.
Proof.
  induction l as [|x l IH]; simpl; [apply Permutation_refl|].
  eapply Permutation_trans; [apply zinsert_perm | apply perm_skip, IH].
Qed.

Lemma zinsert_sorted k l : StronglySorted Z.le l -> StronglySorted Z.le (zinsert k l).
Proof.
  induction 1 as [|x l S IH F]; simpl; [constructor; constructor|].
  destruct (Z.leb_spec k x).
  - constructor; [constructor; assumption|]. constructor; [lia|].
    eapply Forall_impl; [|exact F]. simpl; intros; lia.
  - constructor; [assumption|]. rewrite Forall_forall in *. intros y Hy.
    apply (Permutation_in _ (zinsert_perm k l)) in Hy. destruct Hy as [<-|Hy]; [lia | auto].
Qed.

Lemma zsort_sorted l : StronglySorted Z.le (zsort l).
Proof. induction l; simpl; [constructor | apply zinsert_sorted; assumption]. Qed.

Lemma sorted_lt l : StronglySorted Z.le l -> NoDup l -> StronglySorted Z.lt l.
Proof.
  induction 1 as [|x l S IH F]; intros ND; constructor; inversion ND; subst; auto.
  rewrite Forall_forall in *. intros y Hy. specialize (F y Hy).
  assert (x <> y) by congruence. lia.
Qed.

Lemma zsort_lt l : NoDup l -> StronglySorted Z.lt (zsort l).
Proof.
  intros ND. apply sorted_lt; [apply zsort_sorted|].
  eapply Permutation_NoDup; [|exact ND]. apply Permutation_sym, zsort_perm.
Qed.

Lemma rsum_zsort f l : rsum f (zsort l) = rsum f l.
Proof. apply rsum_perm, zsort_perm. Qed.

(** sparse quadratic convolution *)
Lemma dsum_ext d g h : (forall k, g k = h k) -> dsum d g = dsum d h.
Proof. intros H. apply rsum_ext. intros; rewrite H; reflexivity. Qed.

Lemma dsum_fold (f : Z * R -> Z) (v : Z * R -> R) l g : forall c, NoDup (keys c) ->
  dsum (fold_left (fun c kv => dadd c (f kv) (v kv)) l c) g =
    dsum c g + rsum (fun kv => v kv * g (f kv)) l /\
  NoDup (keys (fold_left (fun c kv => dadd c (f kv) (v kv)) l c)).
Proof.
  induction l as [|kv l IH]; intros c ND; cbn [fold_left rsum].
  - split; [lra | assumption].
  - destruct (IH (dadd c (f kv) (v kv)) (NoDup_dadd _ _ _ ND)) as [E N].
    split; [|assumption]. rewrite E, dsum_dadd by assumption. lra.
Qed.
