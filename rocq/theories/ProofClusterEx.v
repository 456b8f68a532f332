(** Clustering: likelihoods, cases in which the bounds are attained, examples. *)
From Verif Require Import Base XReal Exn TypesCluster ModelCluster SpecCluster ProofTreeShape ProofLockstep ProofInfluence ProofAlign.

Lemma likelihood_exp a n N : count_likelihood a n N = exp (- a * rsum (fun j => Rabs (IZR (n j))) (seq 0 N)).
Proof.
  unfold count_likelihood. generalize (seq 0 N). intros l. induction l as [|j l IH]; cbn [map fold_right rsum].
  - rewrite Rmult_0_r, exp_0. reflexivity.
  - rewrite IH, <- exp_plus. f_equal. ring.
Qed.
Lemma shifted_likelihood a m n n' N : 0 <= a -> shifted m n n' -> count_likelihood a n N <= exp (a * INR m) * count_likelihood a n' N.
Proof.
  intros A (D & places & Lp & P). rewrite !likelihood_exp, <- exp_plus.
  assert (L : rsum (fun j => Rabs (IZR (n' j))) (seq 0 N) <= rsum (fun j => Rabs (IZR (n j))) (seq 0 N) + INR (List.length (filter (fun j => if in_dec Nat.eq_dec j places then true else false) (seq 0 N)))).
  { generalize (seq 0 N). intros l. induction l as [|j l IH]; cbn [rsum filter]; [cbn; lra|]. destruct (in_dec Nat.eq_dec j places) as [I|I].
    - cbn [List.length]. rewrite S_INR. enough (Rabs (IZR (n' j)) <= Rabs (IZR (n j)) + 1) by lra.
      rewrite <- !abs_IZR. replace 1 with (IZR 1) by reflexivity. rewrite <- plus_IZR. apply IZR_le. specialize (D j). lia.
    - rewrite (P j I). lra. }
  assert (K : INR (List.length (filter (fun j => if in_dec Nat.eq_dec j places then true else false) (seq 0 N))) <= INR m).
  { apply le_INR. eapply Nat.le_trans; [|exact Lp]. apply NoDup_incl_length; [apply NoDup_filter, seq_NoDup|]. intros j Hj. apply filter_In in Hj. destruct (in_dec Nat.eq_dec j places); [assumption | destruct Hj; discriminate]. }
  assert (M : - a * rsum (fun j => Rabs (IZR (n j))) (seq 0 N) <= a * INR m + - a * rsum (fun j => Rabs (IZR (n' j))) (seq 0 N)) by nra.
  destruct M as [M|M]; [left; apply exp_increasing, M | right; rewrite M; reflexivity].
Qed.

(** ** The bounds are attained *)
Definition line_point : point := (0%nat, [1]).
Definition line_noise (j : nat) : Z := match j with O => 100%Z | _ => if Nat.odd j then 100%Z else (-10)%Z end.
Definition line_calc : calculator := mkCalc 1 1 (Fin 1).
Definition line_tree (depth : Z) : tree_param := mkTree 1 1 depth.
Notation line_count := (noisy_count line_noise line_calc).

Lemma line_odd j (l : list point) : Nat.odd j = true -> line_count j l = (Z.of_nat (List.length l) + 100)%Z.
Proof. intros O. unfold noisy_count. cbn [laplace_param line_calc xeqb]. unfold line_noise. destruct j; [discriminate|]. rewrite O. reflexivity. Qed.
Lemma line_even j (l : list point) : Nat.odd j = true -> line_count (S j) l = (Z.of_nat (List.length l) - 10)%Z.
Proof. intros O. unfold noisy_count. cbn [laplace_param line_calc xeqb]. unfold line_noise. rewrite Nat.odd_succ, <- Nat.negb_odd, O. reflexivity. Qed.
Lemma calls_app s l : count_calls (s ++ l) = (count_calls s + count_calls l)%nat.
Proof. unfold count_calls. rewrite filter_app, app_length. reflexivity. Qed.

Lemma line_grow depth n prefix c s : (Z.of_nat (List.length prefix + n) <= depth)%Z -> Nat.odd (count_calls s) = true -> (1 <= c)%Z ->
  exists rest s', grow line_count (fun _ => [1]) (line_tree depth) n [mkNode prefix [line_point] c] s = Ok (rest, s') /\
    counts_with 0 s' = (counts_with 0 s + n)%nat /\ sums_with 0 s' = sums_with 0 s /\ forall l x, In l rest -> In x l -> nonprivate_points x = [line_point].
Proof.
  revert prefix c s. induction n as [|n IH]; intros prefix c s D O C; cbn [grow].
  - exists [], s. repeat split; [lia | intros l x []].
  - unfold filter_branching_nodes. cbn [filter private_count min_branching line_tree]. destruct (Z.leb_spec 1 c); [|lia].
    unfold get_next_level. cbn [all_children]. unfold children at 1, group_by_next_hash. cbn [nonprivate_points hash_prefix max_depth line_tree].
    destruct (Z.leb_spec depth (Z.of_nat (List.length prefix))); [lia|]. cbn [filter snd line_point].
    replace (Rleb 0 (dot [1] [1])) with true by (symmetry; apply Rleb_true; unfold dot; cbn; lra).
    replace (Rltb (dot [1] [1]) 0) with false by (symmetry; apply Rltb_false; unfold dot; cbn; lra).
    cbn [bind]. unfold new_node, get_private_count. rewrite line_odd by exact O. rewrite calls_app.
    match goal with |- context [(count_calls s + count_calls ?r)%nat] => replace (count_calls s + count_calls r)%nat with (S (count_calls s)) by (cbn; lia) end.
    rewrite line_even by exact O. cbn [bind app filter private_count min_node line_tree List.length]. cbn [Z.of_nat Pos.of_succ_nat Z.add Z.sub Z.leb Z.compare Pos.compare Pos.compare_cont Pos.add Z.opp Z.pos_sub Pos.succ].
    cbn [Z.leb Z.compare Pos.compare Pos.compare_cont].
    set (s1 := (s ++ _) ++ _).
    destruct (IH (prefix ++ [false]) 101%Z s1) as (rest & s' & H1 & H2 & H3 & H4).
    + rewrite app_length. cbn. lia.
    + unfold s1. rewrite !calls_app. cbn -[Nat.odd]. replace (count_calls s + 1 + 1)%nat with (S (S (count_calls s))) by lia. exact O.
    + lia.
    + rewrite H1. cbn [bind]. do 2 eexists. split; [reflexivity|]. split; [|split].
      * rewrite H2. unfold s1. rewrite !counts_app. cbn. lia.
      * rewrite H3. unfold s1. rewrite !sums_app. cbn. lia.
      * intros l x [<-|Hl] Hx; [destruct Hx as [<-|[]]; reflexivity | apply (H4 l x Hl Hx)].
Qed.

Lemma line_attained depth : (0 <= depth)%Z -> exists out s,
  cluster_with line_noise (fun _ => [0]) (fun _ => [1]) (fun _ l _ => Ok l) line_calc 1 1 2 [line_point] (Some (line_tree depth)) depth = Ok (out, s) /\
  counts_with 0 s = Z.to_nat (depth + 1) /\ sums_with 0 s = 1%nat.
Proof.
  intros D. unfold cluster_with, cluster_from. cbn [choose_tree bind clip_points map]. cbn [fst snd line_point].
  rewrite clip_inside; [| lra | unfold norm, dot; cbn [combine rsum fst snd]; replace (1 * 1 + 0) with 1 by ring; rewrite sqrt_1; lra].
  unfold get_private_coreset. cbn [max_depth line_tree]. destruct (Z.ltb_spec depth 0); [lia|]. unfold new_node, get_private_count. cbn [hash_prefix nonprivate_points private_count app count_calls filter List.length].
  change (line_count 0%nat [(0%nat, [1])]) with 101%Z. cbn [Z.max Z.compare Pos.compare Pos.compare_cont].
  unfold lsh_tree_leaves. cbn [private_count Z.ltb Z.compare Pos.compare Pos.compare_cont].
  destruct (line_grow depth (Z.to_nat depth) [] 101%Z [CountRelease [line_point] 101%Z]) as (rest & s' & H1 & H2 & H3 & H4); [cbn; lia | reflexivity | lia|].
  cbn [max_depth line_tree] in *. change (0%nat, [1]) with line_point. match goal with |- context [grow ?a ?b ?c ?d ?e ?f] => replace (grow a b c d e f) with (Ok (rest, s')) by (symmetry; exact H1) end. cbn [bind].
  set (root := mkNode [] [line_point] 101%Z). set (leaves := flat_map (filter (is_leaf ([root] :: rest))) ([root] :: rest)).
  assert (LP : forall x, In x leaves -> nonprivate_points x = [line_point]).
  { intros x Hx. apply in_flat_map in Hx. destruct Hx as (l & Hl & Hx). apply filter_In in Hx. destruct Hl as [<-|Hl]; [destruct Hx as [[<-|[]] _]; reflexivity | apply (H4 l x Hl), Hx]. }
  assert (L : lsh_tree_leaves line_count (fun _ => [1]) (line_tree depth) root [CountRelease [line_point] 101%Z] = Ok (leaves, s')).
  { unfold lsh_tree_leaves. cbn [private_count root Z.ltb Z.compare Pos.compare Pos.compare_cont max_depth line_tree]. unfold root in *. rewrite H1. reflexivity. }
  destruct (leaves_shape line_count (fun _ => [1]) (line_tree depth) root [CountRelease [line_point] 101%Z] leaves s') as (r & _ & _ & _ & Oc & Ne & Co & _); [reflexivity | unfold distinct; cbn; constructor; [intros [] | constructor] | exact L|].
  destruct (averages_total (noisy_sum (fun _ => [0]) 1) leaves s') as (av & s2 & A).
  { intros x Hx. destruct (Co x Hx) as [->|C]; cbn in *; lia. }
  match goal with |- context [averages ?a ?b ?c] => replace (averages a b c) with (Ok (av, s2)) by (symmetry; exact A) end. destruct (averages_shape _ _ _ _ _ A) as (r2 & -> & C2 & M2 & Le). cbn [bind].
  assert (OL : occ 0 leaves = 1%nat).
  { specialize (Oc 0%nat). destruct leaves as [|x l]; [congruence|]. unfold occ in *. cbn [filter] in *. rewrite (LP x (or_introl eq_refl)) in *. cbn in *. lia. }
  destruct av as [|v av]; [destruct leaves; [congruence | discriminate]|]. cbn [clip_by_radius bind]. do 2 eexists. split; [reflexivity|].
  rewrite counts_app, sums_app, H2, H3. destruct (sum_rows 0 r2 leaves C2 M2) as [-> ->]. rewrite OL. cbn. split; lia.
Qed.

(** ** Without rows *)
Lemma cluster_empty dl g projections kmeans pc k dim radius tree depth : exists e, cluster_with dl g projections kmeans pc k dim radius [] tree depth = Err e.
Proof. unfold cluster_with, cluster_from. destruct (choose_tree _ _ _ _ _ _ _ _) as [((tp & c) & s)|e]; cbn [bind clip_points]; eauto. Qed.

(** ** Examples *)
Definition ex_points : list point := [(0%nat, [1; 0]); (1%nat, [3; 4]); (2%nat, [0; -7])].
Definition ex_calc : calculator := mkCalc 2 1 (Fin (/ 2)).
Definition ex_kmeans (k : Z) (l : list vec) (w : list Z) : res (list vec) := Ok l.
Lemma ex_rows : rows_ok 2 ex_points.
Proof. split; [repeat constructor; cbn; intuition discriminate | intros p [<-|[<-|[<-|[]]]]; reflexivity]. Qed.
Lemma ex_runs dl g projections D : NoDup (names D) -> D <> [] ->
  exists out s, cluster_with dl g projections ex_kmeans ex_calc 2 2 1 D None 20 = Ok (out, s).
Proof.
  intros N E. apply cluster_total; try assumption; [lia | cbn; lra | split; [lia | exact Logic.I]|]. intros. eexists. reflexivity.
Qed.

(** ** The theorems *)
Lemma cluster_neighbours projections kmeans pc k dim radius tree depth pts i :
  0 < radius -> laplace_param pc <> PInf -> rows_ok dim pts -> In i (names pts) -> without i pts <> [] ->
  (forall t, tree = Some t -> max_depth t = depth) ->
  let run n g D := cluster_with n g projections kmeans pc k dim radius D tree depth in
  (exists align : (nat -> Z) * (nat -> vec) -> (nat -> Z) * (nat -> vec),
    (forall n g out s, noise_ok dim g -> run n g pts = Ok (out, s) ->
      exists s', run (fst (align (n, g))) (snd (align (n, g))) (without i pts) = Ok (out, s') /\
        shifted (Z.to_nat (depth + 1)) n (fst (align (n, g))) /\ moved radius g (snd (align (n, g)))) /\
    (forall n g n2 g2 out out2 s s2, noise_ok dim g -> noise_ok dim g2 -> run n g pts = Ok (out, s) -> run n2 g2 pts = Ok (out2, s2) ->
      align (n, g) = align (n2, g2) -> n = n2 /\ g = g2)) /\
  (exists align : (nat -> Z) * (nat -> vec) -> (nat -> Z) * (nat -> vec),
    (forall n g out s, noise_ok dim g -> run n g (without i pts) = Ok (out, s) ->
      exists s', run (fst (align (n, g))) (snd (align (n, g))) pts = Ok (out, s') /\
        shifted (Z.to_nat (depth + 1)) n (fst (align (n, g))) /\ moved radius g (snd (align (n, g)))) /\
    (forall n g n2 g2 out out2 s s2, noise_ok dim g -> noise_ok dim g2 -> run n g (without i pts) = Ok (out, s) -> run n2 g2 (without i pts) = Ok (out2, s2) ->
      align (n, g) = align (n2, g2) -> n = n2 /\ g = g2)).
Proof.
  intros HR HF HP HI HN HT run. split.
  - exists (align projections kmeans pc k dim radius tree depth pts i). split.
    + intros n g out s G H. exists (drop_trace i s). unfold align. cbn [fst snd]. unfold run in H. rewrite H. cbn [fst snd]. apply (remove_row projections kmeans pc k dim radius tree depth pts i HR HF HP HI HN HT); assumption.
    + intros. eapply (align_injective projections kmeans pc k dim radius tree depth pts i); eassumption.
  - exists (unalign projections kmeans pc k dim radius tree depth pts i). split.
    + intros n g out s G H. apply (unalign_run projections kmeans pc k dim radius tree depth pts i HR HF HP HI HN HT n g out s G H).
    + intros. eapply (unalign_injective projections kmeans pc k dim radius tree depth pts i); eassumption.
Qed.

(** ** Clipping *)
Lemma euclidean_norm u : euclidean u = norm u.
Proof. unfold euclidean, norm, dot. f_equal. induction u as [|a u IH]; [reflexivity|]. cbn [rsum combine fst snd]. rewrite IH. reflexivity. Qed.
Lemma clip_row_spec radius u : 0 < radius -> clipped_to radius u (clip_row radius u).
Proof.
  intros H. unfold clipped_to. rewrite !euclidean_norm. split; [intros; apply clip_inside; assumption|]. intros O. split.
  - rewrite clip_norm by exact H. apply Rmin_right. lra.
  - exists (radius / norm u). split; [|unfold clip_row; rewrite Rmax_left by lra; reflexivity]. split; [apply Rdiv_lt_0_compat; lra|].
    apply (Rmult_lt_reg_r (norm u)); [lra|]. unfold Rdiv. rewrite Rmult_assoc, Rinv_l by lra. lra.
Qed.
Lemma clip_spec radius l : 0 < radius -> l <> [] -> exists c, clip_by_radius radius l = Ok c /\ Forall2 (clipped_to radius) l c /\ forall v, In v c -> euclidean v <= radius.
Proof.
  intros H N. destruct l as [|u0 l0]; [congruence|]. set (l := u0 :: l0). exists (map (clip_row radius) l). split; [reflexivity|]. clearbody l. split.
  - induction l as [|u l IH]; constructor; [apply clip_row_spec, H | exact IH].
  - intros v Hv. apply in_map_iff in Hv. destruct Hv as (u & <- & _). rewrite euclidean_norm, clip_norm by exact H. apply Rmin_r.
Qed.
Lemma clip_points_spec radius pts : 0 < radius -> pts <> [] -> exists c, clip_points radius pts = Ok c /\ Forall2 (fun p q : point => fst q = fst p /\ clipped_to radius (snd p) (snd q)) pts c.
Proof.
  intros H N. destruct pts as [|u0 l0]; [congruence|]. set (l := u0 :: l0). eexists. split; [reflexivity|]. change (u0 :: l0) with l. clearbody l.
  induction l as [|u l IH]; constructor; [split; [reflexivity | apply clip_row_spec, H] | exact IH].
Qed.
Lemma clip_sums radius dim pts c i : 0 < radius -> rows_ok dim pts -> clip_points radius pts = Ok c -> In i (names pts) ->
  exists x, List.length x = dim /\ euclidean x <= radius /\ vsum dim (map snd c) = vadd (vsum dim (map snd (without i c))) x.
Proof.
  intros H (D & Ln) C I. destruct (clip_names _ _ _ C) as [Nm E]. apply in_map_iff in I. destruct I as (p & <- & Hp). exists (clip_row radius (snd p)).
  split; [rewrite clip_length; apply Ln, Hp|]. split; [rewrite euclidean_norm, clip_norm by exact H; apply Rmin_r|].
  apply vsum_without; [rewrite Nm; exact D|]. rewrite E. apply in_map_iff. exists p. auto.
Qed.

Lemma summed_clipped dl g projections kmeans pc k dim radius pts tree depth centers s :
  0 < radius -> NoDup (names pts) -> (forall t, tree = Some t -> max_depth t = depth) ->
  cluster_with dl g projections kmeans pc k dim radius pts tree depth = Ok (centers, s) ->
  forall r q, In r s -> is_count r = false -> In q (rows_of r) ->
  euclidean (snd q) <= radius /\ exists p, In p pts /\ fst q = fst p /\ clipped_to radius (snd p) (snd q).
Proof.
  intros H D T C r q Hr Cr Hq. destruct (cluster_shape _ _ _ _ _ _ _ _ _ _ _ _ _ D T C) as (_ & _ & Q). destruct (Q r q Hr Cr Hq) as (p & Hp & ->). cbn [fst snd].
  split; [rewrite euclidean_norm, clip_norm by exact H; apply Rmin_r|]. exists p. split; [exact Hp|]. split; [reflexivity | apply clip_row_spec, H].
Qed.
Lemma attained : forall depth, (0 <= depth)%Z -> exists dlaplace normal projections kmeans pc k dim radius pts tree centers s i,
  NoDup (names pts) /\ max_depth tree = depth /\
  cluster_with dlaplace normal projections kmeans pc k dim radius pts (Some tree) depth = Ok (centers, s) /\
  counts_with i s = Z.to_nat (depth + 1) /\ sums_with i s = 1%nat.
Proof.
  intros depth D. destruct (line_attained depth D) as (out & s & H & C & M). do 12 eexists. exists 0%nat. split; [|split; [|split; [exact H|split; [exact C | exact M]]]].
  - constructor; [intros [] | constructor].
  - reflexivity.
Qed.
Lemma empty_refuted : exists projections kmeans pc k dim radius tree depth pts i,
  0 < radius /\ laplace_param pc <> PInf /\ rows_ok dim pts /\ In i (names pts) /\ tree_ok tree depth /\
  (forall n g, exists out s, cluster_with n g projections kmeans pc k dim radius pts tree depth = Ok (out, s)) /\
  (forall n g, cluster_with n g projections kmeans pc k dim radius (without i pts) tree depth = Err ValueError).
Proof.
  exists (fun _ => [1; 0]), ex_kmeans, ex_calc, 2%Z, 2%nat, 1, None, 20%Z, [(0%nat, [1; 0])], 0%nat. split; [lra|]. split; [discriminate|].
  split; [split; [constructor; [intros [] | constructor] | intros p [<-|[]]; reflexivity]|]. split; [left; reflexivity|]. split; [split; [lia | exact Logic.I]|]. split.
  - intros. apply ex_runs; [constructor; [intros [] | constructor] | discriminate].
  - intros n g. unfold cluster_with, cluster_from.
    destruct (choose_total (noisy_count n ex_calc) ex_calc 2 2 (without 0 [(0%nat, [1; 0])]) None 20 []) as (tp & c & s & -> & _); [lia | cbn; lra | split; [lia | exact Logic.I]|]. reflexivity.
Qed.
Lemma ex_neighbours : 0 < 1 /\ laplace_param ex_calc <> PInf /\ rows_ok 2 ex_points /\ In 1%nat (names ex_points) /\ without 1 ex_points <> [] /\
  forall n g projections, noise_ok 2 g ->
  (exists out s, cluster_with n g projections ex_kmeans ex_calc 2 2 1 ex_points None 20 = Ok (out, s)) /\
  (exists out s, cluster_with n g projections ex_kmeans ex_calc 2 2 1 (without 1 ex_points) None 20 = Ok (out, s)).
Proof.
  split; [lra|]. split; [discriminate|]. split; [exact ex_rows|]. split; [cbn; auto|]. split; [discriminate|]. intros n g pr _. split; apply ex_runs; try discriminate.
  - apply ex_rows.
  - cbn. repeat constructor; cbn; intuition discriminate.
Qed.
Lemma ex_clip : clip_by_radius 5 [[3; 4]; [6; 8]; [0; 1]] = Ok [[3; 4]; [3; 4]; [0; 1]].
Proof.
  assert (H : forall a b c, 0 <= c -> a * a + b * b = c * c -> norm [a; b] = c).
  { intros a b c C E. unfold norm, dot. cbn [combine rsum fst snd]. replace (a * a + (b * b + 0)) with (c * c) by lra. apply sqrt_square, C. }
  unfold clip_by_radius. cbn [map]. unfold clip_row. rewrite (H 3 4 5), (H 6 8 10), (H 0 1 1) by lra. unfold Rmax. destruct (Rle_dec 5 5), (Rle_dec 10 5), (Rle_dec 1 5); try lra.
  unfold vscale. cbn [map]. repeat f_equal; field.
Qed.
Lemma cluster_returns : forall dlaplace normal projections kmeans pc k dim radius pts tree depth,
  (1 <= k)%Z -> sensitivity pc <> 0 -> tree_ok tree depth -> NoDup (names pts) -> pts <> [] ->
  (forall k' l w, List.length l = List.length w -> (1 <= k' <= Z.of_nat (List.length l))%Z -> (forall c, In c w -> (1 <= c)%Z) -> exists c, kmeans k' l w = Ok c) ->
  exists centers s, cluster_with dlaplace normal projections kmeans pc k dim radius pts tree depth = Ok (centers, s).
Proof. intros. apply cluster_total; assumption. Qed.
Lemma cluster_influence : forall dlaplace normal projections kmeans pc k dim radius pts tree depth centers s i,
  NoDup (names pts) -> (forall t, tree = Some t -> max_depth t = depth) ->
  cluster_with dlaplace normal projections kmeans pc k dim radius pts tree depth = Ok (centers, s) ->
  (counts_with i s <= Z.to_nat (depth + 1))%nat /\ (sums_with i s <= 1)%nat.
Proof. intros until i. intros D T H. destruct (cluster_shape _ _ _ _ _ _ _ _ _ _ _ _ _ D T H) as (A & B & _). auto. Qed.
