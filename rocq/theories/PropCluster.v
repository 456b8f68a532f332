(** Clustering: properties C49 and C50. *)
From Verif Require Import Base XReal Exn TypesCluster ModelCluster SpecCluster ProofInfluence ProofAlign ProofClusterEx.

(** C49: each row of the data is among the rows from which at most max_depth + 1 noisy counts and at
    most one noisy sum are computed, whatever the noise and the hash functions are. *)
Theorem C49_influence : forall dlaplace normal projections kmeans pc k dim radius pts tree depth centers s i,
  NoDup (names pts) -> (forall t, tree = Some t -> max_depth t = depth) ->
  cluster_with dlaplace normal projections kmeans pc k dim radius pts tree depth = Ok (centers, s) ->
  (counts_with i s <= Z.to_nat (depth + 1))%nat /\ (sums_with i s <= 1)%nat.
Proof. exact cluster_influence. Qed.
Print Assumptions C49_influence.

(** Both bounds are attained, at every depth: the accounted numbers cannot be made smaller. *)
Theorem C49_attained : forall depth, (0 <= depth)%Z -> exists dlaplace normal projections kmeans pc k dim radius pts tree centers s i,
  NoDup (names pts) /\ max_depth tree = depth /\
  cluster_with dlaplace normal projections kmeans pc k dim radius pts (Some tree) depth = Ok (centers, s) /\
  counts_with i s = Z.to_nat (depth + 1) /\ sums_with i s = 1%nat.
Proof. exact attained. Qed.
Print Assumptions C49_attained.

(** C49: adding or removing a row is hidden by moving the noise: for every noise there is noise with which the
    clustering of the neighbouring data has the same result, which differs by at most 1 in at most
    max_depth + 1 counts, and by a vector of length at most the radius in at most one sum, and
    different noise is moved to different noise. *)
Theorem C49_neighbours_partial : forall projections kmeans pc k dim radius tree depth pts i,
  0 < radius -> laplace_param pc <> PInf -> rows_ok dim pts -> In i (names pts) -> without i pts <> [] ->
  (forall t, tree = Some t -> max_depth t = depth) ->
  let run n g D := cluster_with n g projections kmeans pc k dim radius D tree depth in
  (exists align : (nat -> Z) * (nat -> vec) -> (nat -> Z) * (nat -> vec),
    (forall n g out s, noise_ok dim g -> run n g pts = Ok (out, s) ->
      exists s', run (fst (align (n, g))) (snd (align (n, g))) (without i pts) = Ok (out, s') /\
        shifted (Z.to_nat (depth + 1)) n (fst (align (n, g))) /\ moved radius g (snd (align (n, g)))) /\
    (forall n g n2 g2 out out2 s s2, noise_ok dim g -> noise_ok dim g2 -> run n g pts = Ok (out, s) -> run n2 g2 pts = Ok (out2, s2) ->
      align (n, g) = align (n2, g2) -> n = n2 /\ g = g2)) /\
  (exists align : (nat -> Z) * (nat -> vec) -> (nat -> Z) * (nat -> vec),
    (forall n g out s, noise_ok dim g -> run n g (without i pts) = Ok (out, s) ->
      exists s', run (fst (align (n, g))) (snd (align (n, g))) pts = Ok (out, s') /\
        shifted (Z.to_nat (depth + 1)) n (fst (align (n, g))) /\ moved radius g (snd (align (n, g)))) /\
    (forall n g n2 g2 out out2 s s2, noise_ok dim g -> noise_ok dim g2 -> run n g (without i pts) = Ok (out, s) -> run n2 g2 (without i pts) = Ok (out2, s2) ->
      align (n, g) = align (n2, g2) -> n = n2 /\ g = g2)).
Proof. exact cluster_neighbours. Qed.
Print Assumptions C49_neighbours_partial.

(** C49: moving the noise of the counts in this way changes its likelihood by at most the factor
    e^(a (max_depth + 1)). *)
Theorem C49_likelihood : forall a m n n' N, 0 <= a -> shifted m n n' ->
  count_likelihood a n N <= exp (a * INR m) * count_likelihood a n' N.
Proof. exact shifted_likelihood. Qed.
Print Assumptions C49_likelihood.

(** C49: the clustering of data with at least one row returns, whatever the noise is, if KMeans does. *)
Theorem C49_returns : forall dlaplace normal projections kmeans pc k dim radius pts tree depth,
  (1 <= k)%Z -> sensitivity pc <> 0 -> tree_ok tree depth -> NoDup (names pts) -> pts <> [] ->
  (forall k' l w, List.length l = List.length w -> (1 <= k' <= Z.of_nat (List.length l))%Z -> (forall c, In c w -> (1 <= c)%Z) -> exists c, kmeans k' l w = Ok c) ->
  exists centers s, cluster_with dlaplace normal projections kmeans pc k dim radius pts tree depth = Ok (centers, s).
Proof. exact cluster_returns. Qed.
Print Assumptions C49_returns.

(** C49 does not hold for data with a single row: without rows the clustering always raises, so the
    presence of the row is not hidden by any noise. *)
Theorem C49_empty_refuted : exists projections kmeans pc k dim radius tree depth pts i,
  0 < radius /\ laplace_param pc <> PInf /\ rows_ok dim pts /\ In i (names pts) /\ tree_ok tree depth /\
  (forall n g, exists out s, cluster_with n g projections kmeans pc k dim radius pts tree depth = Ok (out, s)) /\
  (forall n g, cluster_with n g projections kmeans pc k dim radius (without i pts) tree depth = Err ValueError).
Proof. exact empty_refuted. Qed.
Print Assumptions C49_empty_refuted.

(** A case of the hypotheses: three rows of dimension 2, the default tree; both data sets cluster. *)
Example C49_example : 0 < 1 /\ laplace_param ex_calc <> PInf /\ rows_ok 2 ex_points /\ In 1%nat (names ex_points) /\ without 1 ex_points <> [] /\
  forall n g projections, noise_ok 2 g ->
  (exists out s, cluster_with n g projections ex_kmeans ex_calc 2 2 1 ex_points None 20 = Ok (out, s)) /\
  (exists out s, cluster_with n g projections ex_kmeans ex_calc 2 2 1 (without 1 ex_points) None 20 = Ok (out, s)).
Proof. exact ex_neighbours. Qed.

(** C50: clipping to a radius > 0 keeps the rows inside and moves those outside along their own
    direction to the radius, and all results are within the radius. *)
Theorem C50_clipped : forall radius l, 0 < radius -> l <> [] ->
  exists c, clip_by_radius radius l = Ok c /\ Forall2 (clipped_to radius) l c /\ forall v, In v c -> euclidean v <= radius.
Proof. exact clip_spec. Qed.
Print Assumptions C50_clipped.

(** C50: the same for the rows of the data set that is clustered, in which each row keeps its name. *)
Theorem C50_rows : forall radius pts, 0 < radius -> pts <> [] ->
  exists c, clip_points radius pts = Ok c /\ Forall2 (fun p q : point => fst q = fst p /\ clipped_to radius (snd p) (snd q)) pts c.
Proof. exact clip_points_spec. Qed.
Print Assumptions C50_rows.

(** C50: only clipped rows of the data are summed. *)
Theorem C50_summed : forall dlaplace normal projections kmeans pc k dim radius pts tree depth centers s,
  0 < radius -> NoDup (names pts) -> (forall t, tree = Some t -> max_depth t = depth) ->
  cluster_with dlaplace normal projections kmeans pc k dim radius pts tree depth = Ok (centers, s) ->
  forall r q, In r s -> is_count r = false -> In q (rows_of r) ->
  euclidean (snd q) <= radius /\ exists p, In p pts /\ fst q = fst p /\ clipped_to radius (snd p) (snd q).
Proof. exact summed_clipped. Qed.
Print Assumptions C50_summed.

(** C50: so a row changes the sum of the clipped rows by a vector of length at most the radius. *)
Theorem C50_sensitivity : forall radius dim pts c i, 0 < radius -> rows_ok dim pts -> clip_points radius pts = Ok c -> In i (names pts) ->
  exists x, List.length x = dim /\ euclidean x <= radius /\ vsum dim (map snd c) = vadd (vsum dim (map snd (without i c))) x.
Proof. exact clip_sums. Qed.
Print Assumptions C50_sensitivity.

(** Clipping raises for data without rows. *)
Theorem C50_empty : forall radius, clip_by_radius radius [] = Err ValueError.
Proof. exact (fun _ => eq_refl). Qed.
Print Assumptions C50_empty.

Example C50_example : clip_by_radius 5 [[3; 4]; [6; 8]; [0; 1]] = Ok [[3; 4]; [3; 4]; [0; 1]].
Proof. exact ex_clip. Qed.
