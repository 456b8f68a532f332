(** Tree aggregation and forward differences. *)
From Verif Require Import Base XReal Exn TypesEvent TypesRelation ModelMake ModelRdp SpecRdp ProofRdpMath ProofConv ProofMono.
Local Arguments Rltb : simpl never.
Local Arguments Rleb : simpl never.
Local Arguments Reqb : simpl never.

(** ** Depth *)
Lemma depth_log2 m : (1 <= m)%Z -> Rceil (ln (IZR (m + 1)) / ln 2) = (Z.log2 m + 1)%Z.
Proof.
  intros Hm. pose proof (Z.log2_spec m ltac:(lia)) as [L U]. set (k := Z.log2 m) in *.
  assert (Hk : (0 <= k)%Z) by apply Z.log2_nonneg.
  assert (P : forall z, (0 <= z)%Z -> ln (IZR (2 ^ z)) = IZR z * ln 2).
  { intros z Hz. rewrite <- (Z2Nat.id z) at 1 by assumption. rewrite <- pow_IZR, <- Rpower_pow by lra.
    unfold Rpower. rewrite ln_exp, INR_IZR_INZ, Z2Nat.id by assumption. reflexivity. }
  assert (L2 : 0 < ln 2) by (rewrite <- ln_1; apply ln_increasing; lra).
  apply Rceil_unique. rewrite plus_IZR. split.
  - apply (Rmult_lt_reg_r (ln 2)); [assumption|].
    replace (ln (IZR (m + 1)) / ln 2 * ln 2) with (ln (IZR (m + 1))) by (field; lra).
    replace ((IZR k + 1 - 1) * ln 2) with (IZR k * ln 2) by ring. rewrite <- P by assumption.
    apply ln_increasing; apply IZR_lt; [apply Z.pow_pos_nonneg; lia | lia].
  - apply (Rmult_le_reg_r (ln 2)); [assumption|].
    replace (ln (IZR (m + 1)) / ln 2 * ln 2) with (ln (IZR (m + 1))) by (field; lra).
    rewrite <- plus_IZR, <- P by lia. apply ln_le_mono; [apply IZR_lt; lia | apply IZR_le].
    unfold Z.succ in U. lia.
Qed.

(** ** Nodes containing a step *)
Lemma covers_j l j t : covers (l, j) t = true -> j = (t / 2 ^ l)%nat.
Proof.
  unfold covers. cbn [fst snd]. intros H. apply andb_true_iff in H. destruct H as [H1 H2].
  apply Nat.leb_le in H1. apply Nat.ltb_lt in H2.
  apply (Nat.div_unique _ _ _ (t - j * 2 ^ l)); nia.
Qed.

Lemma NoDup_list_prod {A B} (l : list A) (l' : list B) : NoDup l -> NoDup l' -> NoDup (list_prod l l').
Proof.
  intros H H'. induction H as [|a l N H IH]; [constructor|]. cbn [list_prod].
  assert (D : forall (u v : list (A * B)), NoDup u -> NoDup v -> (forall x, In x u -> ~ In x v) -> NoDup (u ++ v)).
  { clear. induction u as [|x u IH]; intros v Hu Hv D; [assumption|]. inversion Hu; subst. cbn. constructor.
    - rewrite in_app_iff. intros [I|I]; [contradiction | apply (D x); [left; reflexivity | assumption]].
    - apply IH; try assumption. intros y Iy. apply D. right. assumption. }
  apply D; [|assumption|].
  - apply FinFun.Injective_map_NoDup; [|assumption]. intros x y [= ->]. reflexivity.
  - intros [x y] I1 I2. apply in_map_iff in I1. destruct I1 as (z & [= <- <-] & _).
    apply in_prod_iff in I2. tauto.
Qed.

Lemma nodes_levels n t :
  NoDup (map fst (filter (fun v => covers v t) (tree_nodes n))).
Proof.
  assert (N : NoDup (filter (fun v => covers v t) (tree_nodes n))).
  { apply NoDup_filter, NoDup_filter, NoDup_list_prod; apply seq_NoDup. }
  assert (J : forall v, In v (filter (fun v => covers v t) (tree_nodes n)) -> snd v = (t / 2 ^ fst v)%nat).
  { intros [l j] I. apply filter_In in I. apply covers_j. apply I. }
  revert N J. generalize (filter (fun v => covers v t) (tree_nodes n)). intros l N J.
  induction N as [|[a b] l Nin N IH]; [constructor|]. cbn. constructor.
  - intros I. apply in_map_iff in I. destruct I as ([a' b'] & E & I). cbn in E. subst a'.
    pose proof (J (a, b) (or_introl eq_refl)) as J1. pose proof (J (a, b') (or_intror I)) as J2. cbn in J1, J2.
    subst. contradiction.
  - apply IH. intros v I. apply J. right. assumption.
Qed.

Lemma pow2_gt l : (l < 2 ^ l)%nat.
Proof. apply Nat.pow_gt_lin_r. lia. Qed.

Lemma nodes_le n t : (1 <= n)%nat -> (nodes_of_step n t <= Nat.log2 n + 1)%nat.
Proof.
  intros Hn. unfold nodes_of_step. rewrite <- (map_length fst).
  rewrite <- (seq_length (Nat.log2 n + 1) 0).
  apply NoDup_incl_length; [apply nodes_levels|].
  intros l I. apply in_map_iff in I. destruct I as ([l' j] & <- & I).
  apply filter_In in I. destruct I as [I _]. apply filter_In in I. destruct I as [_ C].
  unfold complete in C. cbn [fst snd] in *. apply Nat.leb_le in C. apply in_seq.
  assert (2 ^ l' <= n)%nat by nia. apply Nat.log2_le_pow2 in H; lia.
Qed.

Lemma nodes_first n : (1 <= n)%nat -> nodes_of_step n 0 = (Nat.log2 n + 1)%nat.
Proof.
  intros Hn. apply Nat.le_antisymm; [apply nodes_le; assumption|].
  unfold nodes_of_step. rewrite <- (map_length fst (filter _ _)).
  rewrite <- (seq_length (Nat.log2 n + 1) 0) at 1.
  apply NoDup_incl_length; [apply seq_NoDup|]. intros l I. apply in_seq in I.
  apply in_map_iff. exists (l, 0%nat). split; [reflexivity|].
  assert (P : (2 ^ l <= n)%nat) by (apply Nat.log2_le_pow2; lia).
  pose proof (pow2_gt l). apply filter_In. split; [apply filter_In; split|].
  - apply in_prod_iff. split; apply in_seq; lia.
  - unfold complete. cbn [fst snd]. apply Nat.leb_le. lia.
  - unfold covers. cbn [fst snd]. apply andb_true_iff. split; [apply Nat.leb_le; lia | apply Nat.ltb_lt; lia].
Qed.

(** ** The charge *)
Lemma fold_max_spec l z : (forall x, In x l -> (x <= fold_left Z.max l z)%Z) /\ (z <= fold_left Z.max l z)%Z /\
  (fold_left Z.max l z = z \/ In (fold_left Z.max l z) l).
Proof.
  revert z; induction l as [|a l IH]; intros z; cbn [fold_left].
  - split; [intros ? []|]. split; [lia | left; reflexivity].
  - destruct (IH (Z.max z a)) as (A & B & C). split; [|split].
    + intros x [<-|I]; [lia | apply A; assumption].
    + lia.
    + destruct C as [C|C]; [|right; right; assumption].
      destruct (Z.max_spec z a) as [[_ E]|[_ E]]; rewrite E in *; [right; left; congruence | left; assumption].
Qed.

Lemma log2_nat m : (1 <= m)%Z -> Z.log2 m = Z.of_nat (Nat.log2 (Z.to_nat m)).
Proof.
  intros Hm. apply Z.log2_unique; [lia|].
  pose proof (Nat.log2_spec (Z.to_nat m) ltac:(lia)) as [L U].
  split.
  - change 2%Z with (Z.of_nat 2). rewrite <- Nat2Z.inj_pow. lia.
  - rewrite <- Nat2Z.inj_succ. change 2%Z with (Z.of_nat 2). rewrite <- Nat2Z.inj_pow. lia.
Qed.

Lemma tree_charge sigma st orders v : 0 < sigma -> rdp_tree (Fin sigma) st orders = Ok v ->
  exists d, v = map (fun a => xdiv (xmul a (Fin (INR d))) (Fin (2 * (sigma * sigma)))) orders /\
    (forall z, In z (all_counts st) -> (0 <= z)%Z) /\
    (forall n t, In (Z.of_nat n) (all_counts st) -> (t < n)%nat -> (nodes_of_step n t <= d)%nat) /\
    ((exists n t, In (Z.of_nat n) (all_counts st) /\ (t < n)%nat /\ nodes_of_step n t = d) \/
     (d = 0%nat /\ forall z, In z (all_counts st) -> z = 0%Z)).
Proof.
  assert (EC : step_list st = all_counts st) by (destruct st; reflexivity). rewrite <- !EC.
  intros Hs H. unfold rdp_tree in H. cbn [xltb xeqb] in H. rewrite Rltb_false, Reqb_false in H by lra.
  destruct (no_steps st) eqn:NS; [discriminate|].
  destruct (existsb _ (step_list st)) eqn:EX; [discriminate|]. injection H as <-.
  assert (NN : forall z, In z (step_list st) -> (0 <= z)%Z).
  { intros z I. destruct (Z.ltb_spec z 0) as [L|L]; [|assumption]. exfalso.
    assert (X : existsb (fun z => (z <? 0)%Z) (step_list st) = true); [|congruence].
    apply existsb_exists. exists z. split; [assumption | apply Z.ltb_lt; assumption]. }
  assert (NE : step_list st <> []).
  { destruct st as [z|[|z l]]; cbn in *; try discriminate. }
  set (m := fold_left Z.max (step_list st) (hd 0%Z (step_list st))).
  destruct (fold_max_spec (step_list st) (hd 0%Z (step_list st))) as (M1 & M2 & M3). fold m in M1, M2, M3.
  assert (Min : In m (step_list st)).
  { destruct M3 as [M3|M3]; [|assumption]. rewrite M3. destruct (step_list st); [congruence | left; reflexivity]. }
  assert (E : forall d, tree_depth (step_list st) = Z.of_nat d ->
    map (fun a => xdiv (xmul a (Fin (IZR (tree_depth (step_list st))))) (two_var (Fin sigma))) orders =
    map (fun a => xdiv (xmul a (Fin (INR d))) (Fin (2 * (sigma * sigma)))) orders).
  { intros d D. apply map_ext. intros a. rewrite D, <- INR_IZR_INZ. reflexivity. }
  unfold tree_depth in E. fold m in E. unfold tree_depth. fold m.
  destruct (Z.eq_dec m 0) as [Z0|Z0].
  - exists 0%nat. split; [|split; [assumption|split]].
    + apply E. rewrite Z0. cbn. apply Rceil_unique. rewrite ln_1. unfold Rdiv. rewrite Rmult_0_l. lra.
    + intros n t I L. specialize (M1 _ I). lia.
    + right. split; [reflexivity|]. intros z I. specialize (M1 _ I). specialize (NN _ I). lia.
  - assert (Hm : (1 <= m)%Z) by (specialize (NN _ Min); lia).
    exists (Nat.log2 (Z.to_nat m) + 1)%nat. split; [|split; [assumption|split]].
    + apply E. rewrite depth_log2 by assumption. rewrite log2_nat by assumption. lia.
    + intros n t I L. specialize (M1 _ I). eapply Nat.le_trans; [apply nodes_le; lia|].
      apply Nat.add_le_mono_r. apply Nat.log2_le_mono. lia.
    + left. exists (Z.to_nat m), 0%nat. rewrite Z2Nat.id by lia. split; [assumption|]. split; [lia|].
      apply nodes_first. lia.
Qed.

(** ** Forward differences *)
Definition sval (sv : bool * logp) : R := (if fst sv then 1 else -1) * lexp (snd sv).

Lemma diff_entry s0 v0 s1 v1 :
  sval (if Bool.eqb s0 s1 then let (s, v) := log_sub_sign v1 v0 in (if s1 then s else negb s, v)
        else (s1, log_add v0 v1)) = sval (s1, v1) - sval (s0, v0).
Proof.
  unfold sval. destruct s0, s1; cbn [Bool.eqb fst snd].
  - pose proof (log_sub_sign_exp v1 v0) as H. destruct (log_sub_sign v1 v0) as [s v]. cbn [fst snd] in *. lra.
  - rewrite log_add_exp. lra.
  - rewrite log_add_exp. lra.
  - pose proof (log_sub_sign_exp v1 v0) as H. destruct (log_sub_sign v1 v0) as [s v]. cbn [fst snd] in *.
    destruct s; cbn [negb] in *; lra.
Qed.

Lemma diff_in_log_cons n s0 v0 s1 v1 l : diff_in_log (S n) ((s0, v0) :: (s1, v1) :: l) =
  (if Bool.eqb s0 s1 then let (s, v) := log_sub_sign v1 v0 in (if s1 then s else negb s, v)
   else (s1, log_add v0 v1)) :: diff_in_log n ((s1, v1) :: l).
Proof. reflexivity. Qed.

Lemma diff_in_log_length n : forall l, length (diff_in_log n l) = length l.
Proof.
  induction n as [|n IH]; intros l; [destruct l as [|[] ?]; reflexivity|].
  destruct l as [|[s0 v0] [|[s1 v1] l]]; [reflexivity | reflexivity|].
  rewrite diff_in_log_cons. cbn [length]. rewrite IH. reflexivity.
Qed.

Lemma diff_in_log_nth n : forall l d i, (i < n)%nat -> (n < length l)%nat ->
  sval (nth i (diff_in_log n l) d) = sval (nth (S i) l d) - sval (nth i l d).
Proof.
  induction n as [|n IH]; intros l d i Hi Hn; [lia|].
  destruct l as [|[s0 v0] [|[s1 v1] l]]; cbn [length] in Hn; try lia.
  rewrite diff_in_log_cons. destruct i as [|i].
  - cbn [nth]. apply diff_entry.
  - change (nth (S i) (_ :: diff_in_log n ((s1, v1) :: l)) d) with (nth i (diff_in_log n ((s1, v1) :: l)) d).
    rewrite IH by (cbn [length]; lia). reflexivity.
Qed.

Lemma forward_loop f d k : forall m vec i,
  (m < length vec)%nat -> (k <= m)%nat -> (forall x, (x <= m)%nat -> sval (nth x vec d) = fdiff f i x) ->
  length (forward_diffs_loop k m vec) = k /\
  forall j, (j < k)%nat -> sval (nth j (forward_diffs_loop k m vec) d) = fdiff f (i + j + 1) 0.
Proof.
  induction k as [|k IH]; intros m vec i Hm Hk H.
  - split; [reflexivity | intros; lia].
  - cbn [forward_diffs_loop].
    assert (H' : forall x, (x <= m - 1)%nat -> sval (nth x (diff_in_log m vec) d) = fdiff f (S i) x).
    { intros x Hx. rewrite diff_in_log_nth by lia. rewrite !H by lia. reflexivity. }
    destruct (IH (m - 1)%nat (diff_in_log m vec) (S i)) as [L N]; [rewrite diff_in_log_length; lia | lia | exact H'|].
    split; [cbn [length]; rewrite L; reflexivity|]. intros [|j] Hj.
    + cbn [nth]. replace (hd (false, Some 0) (diff_in_log m vec)) with (nth 0 (diff_in_log m vec) d).
      * rewrite H' by lia. f_equal. lia.
      * pose proof (diff_in_log_length m vec) as E. destruct (diff_in_log m vec); [cbn in E; lia | reflexivity].
    + cbn [nth]. rewrite N by lia. f_equal. lia.
Qed.

Lemma forward_diffs_spec fn n k : (k < n + 2)%nat ->
  length (get_forward_diffs fn n) = (n + 2)%nat /\
  sval (nth k (get_forward_diffs fn n) (false, Some 0)) =
  fdiff (fun i => match i with O => 1 | S i => exp (fn i) end) (k + 1) 0.
Proof.
  intros Hk. unfold get_forward_diffs.
  set (f := fun i => match i with O => 1 | S i => exp (fn i) end).
  destruct (forward_loop f (false, Some 0) (n + 2) (n + 2)
    ((true, Some 0) :: map (fun i => (true, Some (fn i))) (seq 0 (n + 2))) 0) as [L N].
  - cbn [length]. rewrite map_length, seq_length. lia.
  - lia.
  - intros x Hx. cbn [fdiff]. destruct x as [|x]; cbn [nth f].
    + unfold sval. cbn. rewrite exp_0. ring.
    + rewrite (nth_indep _ _ ((fun i => (true, Some (fn i))) 0%nat)) by (rewrite map_length, seq_length; lia).
      rewrite (map_nth (fun i => (true, Some (fn i)))), seq_nth by lia. unfold sval. cbn. ring.
  - split; [exact L|]. apply N. assumption.
Qed.
Lemma tree_checks sigma st orders :
  (sigma < 0 -> rdp_tree (Fin sigma) st orders = Err ValueError) /\
  (sigma = 0 -> rdp_tree (Fin sigma) st orders = Ok (map (fun _ => PInf) orders)) /\
  (0 < sigma -> st = OneTree 0 \/ all_counts st = [] \/ Exists (fun z => (z < 0)%Z) (all_counts st) -> rdp_tree (Fin sigma) st orders = Err ValueError) /\
  (0 < sigma -> st <> OneTree 0 -> all_counts st <> [] -> Forall (fun z => (0 <= z)%Z) (all_counts st) -> exists v, rdp_tree (Fin sigma) st orders = Ok v).
Proof.
  assert (EC : step_list st = all_counts st) by (destruct st; reflexivity). unfold rdp_tree. cbn [xltb xeqb]. rewrite EC.
  split; [intros H; rewrite Rltb_true by lra; reflexivity|]. split; [intros ->; rewrite Rltb_false, Reqb_true by lra; reflexivity|].
  split; intros H; rewrite Rltb_false, Reqb_false by lra.
  - intros [->|[A|A]].
    + reflexivity.
    + destruct st as [z|[|z l]]; try discriminate. reflexivity.
    + destruct (no_steps st); [reflexivity|]. assert (existsb (fun z => (z <? 0)%Z) (all_counts st) = true) as ->; [|reflexivity].
      apply existsb_exists. apply Exists_exists in A as (z & I & L). exists z. split; [exact I | apply Z.ltb_lt, L].
  - intros N1 N2 F. assert (no_steps st = false) as ->.
    { destruct st as [z|[|z l]]; cbn [no_steps all_counts] in *; [apply Z.eqb_neq; congruence | congruence | reflexivity]. }
    assert (existsb (fun z => (z <? 0)%Z) (all_counts st) = false) as ->; [|eexists; reflexivity].
    destruct (existsb _ _) eqn:E; [|reflexivity]. apply existsb_exists in E as (z & I & L). apply Z.ltb_lt in L. rewrite Forall_forall in F. specialize (F z I). lia.
Qed.
