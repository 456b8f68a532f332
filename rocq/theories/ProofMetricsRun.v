(** The metrics of a clustering count pairs of points: the histogram and the fields. *)
From Coq Require Import Lra.
From Verif Require Import Base XReal Exn TypesCluster ModelResult SpecResult ProofResult ProofMetrics.
Local Arguments Rltb : simpl never.
Local Arguments Rleb : simpl never.
Local Arguments Reqb : simpl never.

Lemma combine_map {A B C D} (f : A -> C) (g : B -> D) la lb : combine (map f la) (map g lb) = map (fun p => (f (fst p), g (snd p))) (combine la lb).
Proof. revert lb. induction la as [|a la IH]; intros [|b lb]; [reflexivity..|]. cbn. rewrite IH. reflexivity. Qed.
Definition cnt (pts : list (Z * Z)) (i j : nat) : Z := how_many (fun p => ((fst p =? Z.of_nat i)%Z && (snd p =? Z.of_nat j)%Z)%bool) pts.
Definition table (pts : list (Z * Z)) (K T : nat) : list (list Z) := map (fun i => map (cnt pts i) (seq 0 T)) (seq 0 K).
Definition bins (m : Z) : nat := (Z.to_nat (m + 2) - 1)%nat.

Lemma histogram_table xs ys a b h : histogram2d (map IZR xs) (map IZR ys) (arange (- (1 / 2)) (IZR a + 1)) (arange (- (1 / 2)) (IZR b + 1)) = Ok h ->
  h = table (combine xs ys) (bins a) (bins b).
Proof.
  unfold histogram2d. intros H. set (ea := arange (- (1 / 2)) (IZR a + 1)) in *. set (eb := arange (- (1 / 2)) (IZR b + 1)) in *.
  assert (G : Ok h = Ok (map (fun i => map (fun j => Z.of_nat (List.length (filter (fun p => in_bin ea i (fst p) && in_bin eb j (snd p))%bool (combine (map IZR xs) (map IZR ys))))) (seq 0 (List.length eb - 1))) (seq 0 (List.length ea - 1)))).
  { destruct ea as [|e1 ea]; [discriminate|]. destruct eb as [|e2 eb]; [discriminate|]. symmetry. exact H. }
  injection G as ->. unfold ea, eb. rewrite !edges_length. unfold table, bins. apply map_ext_in. intros i Hi. apply in_seq in Hi. apply map_ext_in. intros j Hj. apply in_seq in Hj. unfold cnt. rewrite combine_map.
  fold (how_many (fun p => in_bin (arange (- (1 / 2)) (IZR a + 1)) i (fst p) && in_bin (arange (- (1 / 2)) (IZR b + 1)) j (snd p))%bool (map (fun p => (IZR (fst p), IZR (snd p))) (combine xs ys))).
  rewrite many_map. apply many_ext. intros p _. cbn [fst snd]. rewrite !in_bin_eq by lia. reflexivity.
Qed.
Lemma histogram_some xs ys a b : (-1 <= a)%Z -> (-1 <= b)%Z ->
  exists h, histogram2d xs ys (arange (- (1 / 2)) (IZR a + 1)) (arange (- (1 / 2)) (IZR b + 1)) = Ok h.
Proof.
  intros Ha Hb. unfold histogram2d. pose proof (edges_length a) as La. pose proof (edges_length b) as Lb. destruct (arange _ (IZR a + 1)) as [|e1 ea]; [cbn in La; lia|]. destruct (arange _ (IZR b + 1)) as [|e2 eb]; [cbn in Lb; lia|]. eauto.
Qed.
Lemma table_nth pts K T i j : nth j (nth i (table pts K T) []) 0%Z = if ((i <? K)%nat && (j <? T)%nat)%bool then cnt pts i j else 0%Z.
Proof.
  unfold table. destruct (Nat.ltb_spec i K) as [Hi|Hi].
  - rewrite (nth_indep _ [] (map (cnt pts 0) (seq 0 T))) by (rewrite map_length, seq_length; exact Hi). rewrite (map_nth (fun i => map (cnt pts i) (seq 0 T))), seq_nth by exact Hi. cbn [Nat.add andb].
    destruct (Nat.ltb_spec j T) as [Hj|Hj].
    + rewrite (nth_indep _ 0%Z (cnt pts i 0)) by (rewrite map_length, seq_length; exact Hj). rewrite (map_nth (cnt pts i)), seq_nth by exact Hj. reflexivity.
    + apply nth_overflow. rewrite map_length, seq_length. exact Hj.
  - rewrite (nth_overflow (map _ _)) by (rewrite map_length, seq_length; exact Hi). destruct j; reflexivity.
Qed.

(** ** The fields *)
Section Fields.
  Context (pts : list (Z * Z)) (K T : nat) (HK : (1 <= K)%nat) (HT : (1 <= T)%nat).
  Hypothesis HR : forall p, In p pts -> (0 <= fst p < Z.of_nat K)%Z /\ (0 <= snd p < Z.of_nat T)%Z.
  Notation N := (Z.of_nat (List.length pts)).
  Notation zeq := (fun a b : nat => Nat.eqb a b).
  Lemma row_sum i : zsum (map (cnt pts i) (seq 0 T)) = how_many (fun p => fst p =? Z.of_nat i)%Z pts.
  Proof.
    rewrite <- (cells_sum Nat.eqb Nat.eqb_eq (fun p : Z * Z => Z.to_nat (snd p)) (seq 0 T) (seq_NoDup _ _) (fun p => fst p =? Z.of_nat i)%Z pts).
    - apply zsum_ext. intros j _. apply many_ext. intros p Hp. destruct (HR p Hp). rewrite andb_comm. f_equal. destruct (Z.eqb_spec (snd p) (Z.of_nat j)), (Nat.eqb_spec (Z.to_nat (snd p)) j); try reflexivity; lia.
    - intros p Hp. destruct (HR p Hp). apply in_seq. lia.
  Qed.
  Lemma col_sum j : zsum (map (fun i => cnt pts i j) (seq 0 K)) = how_many (fun p => snd p =? Z.of_nat j)%Z pts.
  Proof.
    rewrite <- (cells_sum Nat.eqb Nat.eqb_eq (fun p : Z * Z => Z.to_nat (fst p)) (seq 0 K) (seq_NoDup _ _) (fun p => snd p =? Z.of_nat j)%Z pts).
    - apply zsum_ext. intros i _. apply many_ext. intros p Hp. destruct (HR p Hp). f_equal. destruct (Z.eqb_spec (fst p) (Z.of_nat i)), (Nat.eqb_spec (Z.to_nat (fst p)) i); try reflexivity; lia.
    - intros p Hp. destruct (HR p Hp). apply in_seq. lia.
  Qed.
  Lemma rows_total : zsum (map (fun i => how_many (fun p => fst p =? Z.of_nat i)%Z pts) (seq 0 K)) = N.
  Proof.
    rewrite <- many_all. rewrite <- (cells_sum Nat.eqb Nat.eqb_eq (fun p : Z * Z => Z.to_nat (fst p)) (seq 0 K) (seq_NoDup _ _) (fun _ => true) pts).
    - apply zsum_ext. intros i _. apply many_ext. intros p Hp. destruct (HR p Hp). rewrite andb_true_r. destruct (Z.eqb_spec (fst p) (Z.of_nat i)), (Nat.eqb_spec (Z.to_nat (fst p)) i); try reflexivity; lia.
    - intros p Hp. destruct (HR p Hp). apply in_seq. lia.
  Qed.
  Lemma table_rows : map zsum (table pts K T) = map (fun i => how_many (fun p => fst p =? Z.of_nat i)%Z pts) (seq 0 K).
  Proof. unfold table. rewrite map_map. apply map_ext. exact row_sum. Qed.
  Lemma table_cols : map (fun j => zsum (column (table pts K T) j)) (seq 0 T) = map (fun j => how_many (fun p => snd p =? Z.of_nat j)%Z pts) (seq 0 T).
  Proof.
    apply map_ext_in. intros j Hj. apply in_seq in Hj. rewrite <- col_sum. unfold column, table. rewrite map_map. apply zsum_ext. intros i _.
    rewrite (nth_indep _ 0%Z (cnt pts i 0)) by (rewrite map_length, seq_length; lia). rewrite (map_nth (cnt pts i)), seq_nth by lia. reflexivity.
  Qed.
  Lemma zsum_concat (h : list (list Z)) : zsum (concat h) = zsum (map zsum h).
  Proof.
    induction h as [|r h IH]; [reflexivity|]. cbn [concat map]. change (zsum (zsum r :: map zsum h)) with (zsum r + zsum (map zsum h))%Z. rewrite <- IH. unfold zsum. rewrite fold_right_app.
    generalize (fold_right Z.add 0%Z (concat h)). intros z. induction r as [|a r IHr]; [reflexivity|]. cbn. rewrite IHr. lia.
  Qed.
  Lemma table_total : zsum (concat (table pts K T)) = N.
  Proof. rewrite zsum_concat, table_rows. apply rows_total. Qed.

  Definition pair_eqb (p q : nat * nat) : bool := (Nat.eqb (fst p) (fst q) && Nat.eqb (snd p) (snd q))%bool.
  Lemma pair_eqb_ok p q : pair_eqb p q = true <-> p = q.
  Proof. destruct p as [a b], q as [c d]. unfold pair_eqb. cbn [fst snd]. rewrite andb_true_iff, !Nat.eqb_eq. split; [intros [-> ->]; reflexivity | intros [= -> ->]; split; reflexivity]. Qed.
  Lemma NoDup_prod {A B} (la : list A) (lb : list B) : NoDup la -> NoDup lb -> NoDup (list_prod la lb).
  Proof.
    intros Ha Hb. induction Ha as [|a la Hn Ha IH]; [constructor|]. cbn [list_prod]. apply NoDup_app_intro_local.
    - apply FinFun.Injective_map_NoDup; [intros x y [= ->]; reflexivity | exact Hb].
    - exact IH.
    - intros [x y] H1 H2. apply in_map_iff in H1 as (z & [= -> ->] & _). apply in_prod_iff in H2 as [H2 _]. exact (Hn H2).
  Qed.
  Lemma table_squares : zsum (map (fun x => x * x)%Z (concat (table pts K T))) = (N + 2 * how_many (fun p => same_cluster p && same_truth p)%bool (pairs pts))%Z.
  Proof.
    unfold table. rewrite concat_prod, map_map.
    pose proof (cells_squares pair_eqb pair_eqb_ok (fun p : Z * Z => (Z.to_nat (fst p), Z.to_nat (snd p))) (list_prod (seq 0 K) (seq 0 T)) (NoDup_prod _ _ (seq_NoDup _ _) (seq_NoDup _ _)) pts) as C.
    rewrite (zsum_ext _ (fun c => how_many (fun x => pair_eqb (Z.to_nat (fst x), Z.to_nat (snd x)) c) pts * how_many (fun x => pair_eqb (Z.to_nat (fst x), Z.to_nat (snd x)) c) pts)%Z).
    - rewrite C.
      + do 2 f_equal. apply many_ext. intros [p q] Hpq. apply pairs_in in Hpq as [Hp Hq]. destruct (HR p Hp), (HR q Hq). unfold pair_eqb, same_cluster, same_truth. cbn [fst snd]. f_equal.
        * destruct (Nat.eqb_spec (Z.to_nat (fst p)) (Z.to_nat (fst q))), (Z.eqb_spec (fst p) (fst q)); try reflexivity; lia.
        * destruct (Nat.eqb_spec (Z.to_nat (snd p)) (Z.to_nat (snd q))), (Z.eqb_spec (snd p) (snd q)); try reflexivity; lia.
      + intros p Hp. destruct (HR p Hp). apply in_prod_iff. split; apply in_seq; lia.
    - intros [i j] _. cbn [fst snd]. assert (E : cnt pts i j = how_many (fun x => pair_eqb (Z.to_nat (fst x), Z.to_nat (snd x)) (i, j)) pts); [|rewrite E; reflexivity].
      apply many_ext. intros p Hp. destruct (HR p Hp). unfold pair_eqb. cbn [fst snd]. f_equal.
      + destruct (Z.eqb_spec (fst p) (Z.of_nat i)), (Nat.eqb_spec (Z.to_nat (fst p)) i); try reflexivity; lia.
      + destruct (Z.eqb_spec (snd p) (Z.of_nat j)), (Nat.eqb_spec (Z.to_nat (snd p)) j); try reflexivity; lia.
  Qed.
  Lemma label_squares (f : Z * Z -> Z) n : (forall p, In p pts -> (0 <= f p < Z.of_nat n)%Z) ->
    zsum (map (fun x => x * x)%Z (map (fun j => how_many (fun p => f p =? Z.of_nat j)%Z pts) (seq 0 n))) = (N + 2 * how_many (fun p => f (fst p) =? f (snd p))%Z (pairs pts))%Z.
  Proof.
    intros HF. rewrite map_map. pose proof (cells_squares Nat.eqb Nat.eqb_eq (fun p : Z * Z => Z.to_nat (f p)) (seq 0 n) (seq_NoDup _ _) pts) as C.
    rewrite (zsum_ext _ (fun c => how_many (fun x => Nat.eqb (Z.to_nat (f x)) c) pts * how_many (fun x => Nat.eqb (Z.to_nat (f x)) c) pts)%Z).
    - rewrite C.
      + do 2 f_equal. apply many_ext. intros [p q] Hpq. apply pairs_in in Hpq as [Hp Hq]. cbn [fst snd]. pose proof (HF p Hp). pose proof (HF q Hq). destruct (Nat.eqb_spec (Z.to_nat (f p)) (Z.to_nat (f q))), (Z.eqb_spec (f p) (f q)); try reflexivity; lia.
      + intros p Hp. pose proof (HF p Hp). apply in_seq. lia.
    - intros j _. assert (E : how_many (fun p => f p =? Z.of_nat j)%Z pts = how_many (fun x => Nat.eqb (Z.to_nat (f x)) j) pts); [|rewrite E; reflexivity].
      apply many_ext. intros p Hp. pose proof (HF p Hp). destruct (Z.eqb_spec (f p) (Z.of_nat j)), (Nat.eqb_spec (Z.to_nat (f p)) j); try reflexivity; lia.
  Qed.
  Lemma label_total (f : Z * Z -> Z) n : (forall p, In p pts -> (0 <= f p < Z.of_nat n)%Z) ->
    zsum (map (fun j => how_many (fun p => f p =? Z.of_nat j)%Z pts) (seq 0 n)) = N.
  Proof.
    intros HF. rewrite <- many_all. rewrite <- (cells_sum Nat.eqb Nat.eqb_eq (fun p : Z * Z => Z.to_nat (f p)) (seq 0 n) (seq_NoDup _ _) (fun _ => true) pts).
    - apply zsum_ext. intros i _. apply many_ext. intros p Hp. pose proof (HF p Hp). rewrite andb_true_r. destruct (Z.eqb_spec (f p) (Z.of_nat i)), (Nat.eqb_spec (Z.to_nat (f p)) i); try reflexivity; lia.
    - intros p Hp. pose proof (HF p Hp). apply in_seq. lia.
  Qed.
  (** *** The dominant labels *)
  Lemma maxima_ok : exists best : nat -> nat, (forall i, (best i < T)%nat /\ forall j, (j < T)%nat -> (cnt pts i j <= cnt pts i (best i))%Z) /\
    map_res np_max (table pts K T) = Ok (map (fun i => cnt pts i (best i)) (seq 0 K)).
  Proof.
    assert (B : forall i, {j | (j < T)%nat /\ np_max (map (cnt pts i) (seq 0 T)) = Ok (cnt pts i j) /\ forall j', (j' < T)%nat -> (cnt pts i j' <= cnt pts i j)%Z}).
    { intros i. destruct (np_max (map (cnt pts i) (seq 0 T))) as [m|e] eqn:E.
      - pose proof (np_max_ok _ _ E) as [I M].
        destruct (find (fun j => (m =? cnt pts i j)%Z) (seq 0 T)) as [j|] eqn:F.
        + apply find_some in F as [F1 F2]. apply in_seq in F1. apply Z.eqb_eq in F2. exists j. split; [lia|]. split; [congruence|]. intros j' Hj'. rewrite <- F2. apply M, in_map_iff. exists j'. split; [reflexivity | apply in_seq; lia].
        + exfalso. apply in_map_iff in I as (j & Ej & Hj). pose proof (find_none _ _ F j Hj) as Q. cbn in Q. rewrite Ej, Z.eqb_refl in Q. discriminate.
      - exfalso. destruct T as [|T']; [lia|]. cbn in E. discriminate. }
    exists (fun i => proj1_sig (B i)). split.
    - intros i. destruct (B i) as (j & H1 & H2 & H3). split; assumption.
    - unfold table. clear - B. generalize (seq 0 K). intros l. induction l as [|i l IH]; [reflexivity|]. cbn [map map_res]. destruct (B i) as (j & H1 & H2 & H3) eqn:Ei. rewrite H2. cbn [bind]. rewrite IH. cbn [bind proj1_sig]. rewrite ?Ei. reflexivity.
  Qed.
  Lemma named_sum (f : Z -> Z) : how_many (fun p => f (fst p) =? snd p)%Z pts = zsum (map (fun i => how_many (fun p => (fst p =? Z.of_nat i)%Z && (snd p =? f (Z.of_nat i))%Z)%bool pts) (seq 0 K)).
  Proof.
    rewrite <- (cells_sum Nat.eqb Nat.eqb_eq (fun p : Z * Z => Z.to_nat (fst p)) (seq 0 K) (seq_NoDup _ _) (fun p => f (fst p) =? snd p)%Z pts).
    - apply zsum_ext. intros i _. apply many_ext. intros p Hp. destruct (HR p Hp). destruct (Z.eqb_spec (fst p) (Z.of_nat i)) as [E|E], (Nat.eqb_spec (Z.to_nat (fst p)) i) as [E'|E']; try lia; try reflexivity. cbn [andb]. rewrite <- E. apply Z.eqb_sym.
    - intros p Hp. destruct (HR p Hp). apply in_seq. lia.
  Qed.
  Lemma dominant_ok : exists maxima, map_res np_max (table pts K T) = Ok maxima /\
    (forall f : Z -> Z, (how_many (fun p => f (fst p) =? snd p)%Z pts <= zsum maxima)%Z) /\
    exists f : Z -> Z, how_many (fun p => f (fst p) =? snd p)%Z pts = zsum maxima.
  Proof.
    destruct maxima_ok as (best & HB & E). eexists. split; [exact E|]. split.
    - intros f. rewrite named_sum. apply zsum_le. intros i _. destruct (HB i) as [H1 H2].
      destruct (Z.lt_ge_cases (f (Z.of_nat i)) 0) as [L|L]; [|destruct (Z.lt_ge_cases (f (Z.of_nat i)) (Z.of_nat T)) as [U|U]].
      + rewrite many_none; [apply many_nonneg|]. intros p Hp. destruct (HR p Hp). destruct (Z.eqb_spec (snd p) (f (Z.of_nat i))); [lia | apply andb_false_r].
      + specialize (H2 (Z.to_nat (f (Z.of_nat i))) ltac:(lia)). unfold cnt at 1 in H2. rewrite Z2Nat.id in H2 by lia. exact H2.
      + rewrite many_none; [apply many_nonneg|]. intros p Hp. destruct (HR p Hp). destruct (Z.eqb_spec (snd p) (f (Z.of_nat i))); [lia | apply andb_false_r].
    - exists (fun a => Z.of_nat (best (Z.to_nat a))). rewrite (named_sum (fun a => Z.of_nat (best (Z.to_nat a)))). apply zsum_ext. intros i _. rewrite Nat2Z.id. reflexivity.
  Qed.
End Fields.

Lemma half_pairs l : rsum (fun c => IZR c * (IZR c - 1) / 2) l = (IZR (zsum (map (fun x => x * x)%Z l)) - IZR (zsum l)) / 2.
Proof.
  induction l as [|x l IH]; [cbn; lra|]. cbn [rsum map]. change (zsum (x * x :: map (fun x => x * x) l)%Z) with (x * x + zsum (map (fun x => x * x)%Z l))%Z. change (zsum (x :: l)) with (x + zsum l)%Z.
  rewrite IH, !plus_IZR, mult_IZR. field.
Qed.
Lemma fraction_ok a b : (b = 0 -> a = 0)%Z -> xdiv (Fin (IZR a)) (Fin (IZR b)) = fraction a b.
Proof.
  intros H. unfold fraction. cbn [xdiv]. destruct (Z.eqb_spec b 0) as [E|E].
  - rewrite (H E), E. rewrite Reqb_true by reflexivity. rewrite Rltb_false by lra. reflexivity.
  - rewrite Reqb_false; [reflexivity|]. intros X. apply E, eq_IZR, X.
Qed.

Lemma metrics_table pts K T : (1 <= K)%nat -> (1 <= T)%nat -> (forall p, In p pts -> (0 <= fst p < Z.of_nat K)%Z /\ (0 <= snd p < Z.of_nat T)%Z) -> pts <> [] ->
  exists m, new_metrics T (table pts K T) = Ok m /\ counts pts m.
Proof.
  intros HK HT HR NE. unfold new_metrics. destruct (dominant_ok pts K T HK HT HR) as (maxima & EM & DM & DA). rewrite EM. cbn [bind].
  rewrite (table_cols pts K T HK HT HR), (table_rows pts K T HK HT HR), (table_total pts K T HK HT HR), (table_squares pts K T HK HT HR). rewrite half_pairs.
  rewrite (label_squares pts K T HK HT snd T) by (intros p Hp; apply (HR p Hp)). rewrite (label_squares pts K T HK HT fst K) by (intros p Hp; apply (HR p Hp)). rewrite (label_total pts K T HK HT snd T) by (intros p Hp; apply (HR p Hp)).
  change (fun p : Z * Z * (Z * Z) => (snd (fst p) =? snd (snd p))%Z) with same_truth. change (fun p : Z * Z * (Z * Z) => (fst (fst p) =? fst (snd p))%Z) with same_cluster.
  set (N := Z.of_nat (List.length pts)). set (tp := how_many same_truth (pairs pts)). set (sc := how_many same_cluster (pairs pts)). set (both := how_many (fun p => same_cluster p && same_truth p)%bool (pairs pts)).
  set (tn := how_many (fun p => same_truth p && negb (same_cluster p))%bool (pairs pts)). set (fp := how_many (fun p => negb (same_truth p)) (pairs pts)). set (fm := how_many (fun p => same_cluster p && negb (same_truth p))%bool (pairs pts)).
  assert (E1 : (tn + both = tp)%Z). { unfold tn, both, tp. rewrite <- (many_not same_truth same_cluster). f_equal. apply many_ext. intros; apply andb_comm. }
  assert (E2 : (fm + both = sc)%Z) by (apply (many_not same_cluster same_truth)).
  assert (E3 : (fp + tp = Z.of_nat (List.length (pairs pts)))%Z). { rewrite <- many_all. unfold fp, tp. pose proof (many_not (fun _ => true) same_truth (pairs pts)) as Q. cbn [andb] in Q. exact Q. }
  pose proof (pairs_length pts) as E4. fold N in E4. rewrite <- E3 in E4.
  assert (T1 : (IZR (N + 2 * tp) - IZR N) / 2 = IZR tp) by (rewrite plus_IZR, mult_IZR; field). rewrite T1.
  assert (T2 : (IZR (N + 2 * tp) - IZR (N + 2 * both)) / 2 = IZR tn) by (rewrite <- E1, !plus_IZR, !mult_IZR, plus_IZR; field). rewrite T2.
  assert (T3 : (IZR (N + 2 * sc) - IZR (N + 2 * both)) / 2 = IZR fm) by (rewrite <- E2, !plus_IZR, !mult_IZR, plus_IZR; field). rewrite T3.
  assert (T4 : IZR N * (IZR N - 1) / 2 - IZR tp = IZR fp). { apply (f_equal IZR) in E4. rewrite !mult_IZR, plus_IZR, minus_IZR in E4. lra. } rewrite T4.
  assert (Z0 : forall P Q : Z * Z * (Z * Z) -> bool, (forall x, P x = true -> Q x = true) -> how_many Q (pairs pts) = 0%Z -> how_many P (pairs pts) = 0%Z).
  { intros P Q H Q0. pose proof (many_le P Q (pairs pts) (fun x _ => H x)). pose proof (many_nonneg P (pairs pts)). lia. }
  eexists. split; [reflexivity|]. unfold counts. fold N. cbn [num_points dominant_label_correct_count dominant_label_accuracy true_pairs true_nonmatch_count true_nonmatch_frac false_pairs false_match_count false_match_frac]. cbn zeta. fold tp tn fp fm.
  split; [reflexivity|]. split; [exact DM|]. split; [exact DA|]. split; [|repeat split].
  - apply fraction_ok. intros X. unfold N in X. destruct pts; [congruence | cbn in X; lia].
  - apply fraction_ok. apply Z0. intros x. destruct (same_truth x); [reflexivity | discriminate].
  - apply fraction_ok. apply Z0. intros x. destruct (same_truth x); [rewrite andb_false_r; discriminate | reflexivity].
Qed.

Lemma result_labels d c ls lo r : new_result d c ls lo = Ok r -> of_data r = d /\ List.length (labels r) = num_rows (datapoints d) /\ Forall (is_label c) (labels r).
Proof.
  unfold new_result. destruct (match ls with Some _ => _ | None => _ end) as [[[l|] [o|]]|]; try discriminate. cbn [bind]. intros H.
  assert (G : new_result d c (Some l) (Some o) = Ok r) by exact H. apply result_given in G as (-> & A & _ & B). cbn. repeat split; assumption.
Qed.
Lemma histogram_inv r ts h : true_labels (of_data r) = Some ts -> cross_label_histogram r = Ok h ->
  exists a b, np_max (labels r) = Ok a /\ np_max ts = Ok b /\ h = table (combine (labels r) ts) (bins a) (bins b).
Proof.
  unfold cross_label_histogram. intros ->. destruct (np_max (labels r)) as [a|]; [|discriminate]. destruct (np_max ts) as [b|]; [|discriminate]. cbn [bind]. intros H. exists a, b. repeat split. apply histogram_table, H.
Qed.
Lemma histogram_counts r ts h : true_labels (of_data r) = Some ts -> cross_label_histogram r = Ok h ->
  forall i j, nth j (nth i h []) 0%Z = how_many (fun p => ((fst p =? Z.of_nat i)%Z && (snd p =? Z.of_nat j)%Z)%bool) (combine (labels r) ts).
Proof.
  intros ET H i j. destruct (histogram_inv r ts h ET H) as (a & b & Ea & Eb & ->). rewrite table_nth. apply np_max_ok in Ea as [_ Ma]. apply np_max_ok in Eb as [_ Mb].
  destruct (Nat.ltb_spec i (bins a)) as [Hi|Hi]; [destruct (Nat.ltb_spec j (bins b)) as [Hj|Hj]; [reflexivity|]|]; cbn [andb]; symmetry; apply many_none; intros [x y] Hp; cbn [fst snd].
  - apply in_combine_r, Mb in Hp. unfold bins in Hj. destruct (Z.eqb_spec y (Z.of_nat j)); [lia | apply andb_false_r].
  - apply in_combine_l, Ma in Hp. unfold bins in Hi. destruct (Z.eqb_spec x (Z.of_nat i)); [lia | reflexivity].
Qed.
Lemma metrics_ok pts ts d c ls lo r : new_data pts (Some ts) = Ok d -> new_result d c ls lo = Ok r -> rows pts <> [] -> Forall (fun t => 0 <= t)%Z ts ->
  exists m, get_clustering_metrics r = Ok m /\ counts (combine (labels r) ts) m.
Proof.
  intros ED ER NE HT. unfold new_data in ED. destruct (Nat.eqb_spec (List.length ts) (num_rows pts)) as [LT|]; [|discriminate]. injection ED as <-.
  destruct (result_labels _ _ _ _ _ ER) as (OD & LL & RL). cbn [datapoints] in LL.
  assert (N0 : (1 <= num_rows pts)%nat) by (unfold num_rows; destruct (rows pts); [congruence | cbn; lia]).
  destruct (np_max_some (labels r)) as [a Ea]; [intros X; rewrite X in LL; cbn in LL; lia|]. destruct (np_max_some ts) as [b Eb]; [intros X; rewrite X in LT; cbn in LT; lia|].
  pose proof (np_max_ok _ _ Ea) as [Ia Ma]. pose proof (np_max_ok _ _ Eb) as [Ib Mb]. rewrite Forall_forall in RL, HT.
  assert (Pa : (0 <= a)%Z) by (apply RL in Ia; destruct Ia; lia). assert (Pb : (0 <= b)%Z) by (apply HT, Ib).
  destruct (histogram_some (map IZR (labels r)) (map IZR ts) a b ltac:(lia) ltac:(lia)) as [h Eh].
  assert (EC : cross_label_histogram r = Ok h). { unfold cross_label_histogram. rewrite OD. cbn [true_labels]. rewrite Ea. cbn [bind]. rewrite Eb. exact Eh. }
  unfold get_clustering_metrics. rewrite EC. cbn [bind]. apply histogram_table in Eh. subst h.
  assert (W : List.length (hd [] (table (combine (labels r) ts) (bins a) (bins b))) = bins b).
  { unfold table. destruct (bins a) as [|n] eqn:E; [unfold bins in E; lia|]. cbn [seq map hd]. rewrite map_length, seq_length. reflexivity. }
  rewrite W. apply metrics_table; try (unfold bins; lia).
  - intros [x y] Hp. cbn [fst snd]. pose proof (in_combine_l _ _ _ _ Hp) as H1. pose proof (in_combine_r _ _ _ _ Hp) as H2. pose proof (Ma _ H1). pose proof (Mb _ H2). apply RL in H1. apply HT in H2. unfold bins. destruct H1. lia.
  - intros X. apply (f_equal (@List.length _)) in X. rewrite combine_length in X. cbn in X. lia.
Qed.
