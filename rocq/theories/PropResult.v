(** C77: the result of the clustering and its metrics. *)
From Verif Require Import Base XReal Exn TypesCluster ModelPld ModelCluster ModelCalculator ModelResult SpecResult ProofResult ProofMetrics ProofMetricsRun ProofResultRun.

(** C77: a result that is computed from centers labels every point with the first of its closest
    centers, and its loss is the smallest cost of any assignment of the points to the centers. *)
Theorem C77_labels : forall d c r, well_shaped c -> new_result d c None None = Ok r ->
  of_data r = d /\ centers r = c /\ Forall2 (closest c) (rows (datapoints d)) (labels r) /\
  loss r = cost c (rows (datapoints d)) (labels r) /\
  forall other, List.length other = num_rows (datapoints d) -> Forall (is_label c) other -> loss r <= cost c (rows (datapoints d)) other.
Proof. exact result_computed. Qed.
Print Assumptions C77_labels.
Example C77_labels_example : exists r, new_result example_data (line [0; 5]) None None = Ok r /\ labels r = [0; 0; 1; 1]%Z /\ loss r = 2.
Proof. exact result_example. Qed.

(** C77: it is computed for all points and centers of the same dimension, if there is a center. *)
Theorem C77_total : forall d c, well_shaped c -> well_shaped (datapoints d) -> rows c <> [] -> cols c = cols (datapoints d) ->
  exists r, new_result d c None None = Ok r.
Proof. exact result_total. Qed.
Print Assumptions C77_total.

(** C77: labels and a loss that are given are accepted exactly if there is one label per point, all
    are indices of centers and the dimensions agree; one without the other is rejected. *)
Theorem C77_given : forall d c ls lo r, new_result d c (Some ls) (Some lo) = Ok r <->
  r = mkResult d c ls lo /\ List.length ls = num_rows (datapoints d) /\ cols c = cols (datapoints d) /\ Forall (is_label c) ls.
Proof. exact result_given. Qed.
Print Assumptions C77_given.
Theorem C77_one : forall d c ls lo, (ls = None /\ lo <> None) \/ (ls <> None /\ lo = None) -> new_result d c ls lo = Err ValueError.
Proof. exact result_one. Qed.
Print Assumptions C77_one.

(** C77: the histogram counts the points with a cluster label and a true label, *)
Theorem C77_histogram : forall r ts h, true_labels (of_data r) = Some ts -> cross_label_histogram r = Ok h ->
  forall i j, nth j (nth i h []) 0%Z = how_many (fun p => ((fst p =? Z.of_nat i)%Z && (snd p =? Z.of_nat j)%Z)%bool) (combine (labels r) ts).
Proof. exact histogram_counts. Qed.
Print Assumptions C77_histogram.

(** C77: and for true labels 0, 1, ... the metrics are the accuracy of the best naming of the
    clusters, and the numbers and fractions of pairs of points that their documentation says. *)
Theorem C77_metrics : forall pts ts d c ls lo r, new_data pts (Some ts) = Ok d -> new_result d c ls lo = Ok r ->
  rows pts <> [] -> Forall (fun t => 0 <= t)%Z ts ->
  exists m, get_clustering_metrics r = Ok m /\ counts (combine (labels r) ts) m.
Proof. exact metrics_ok. Qed.
Print Assumptions C77_metrics.
Example C77_metrics_example : exists r m, new_result example_data (line [0; 5]) (Some [0; 0; 1; 1]%Z) (Some 2) = Ok r /\ get_clustering_metrics r = Ok m /\
  dominant_label_correct_count m = 3%Z /\ true_pairs m = 3 /\ true_nonmatch_count m = 2 /\ false_pairs m = 3 /\ false_match_count m = 1.
Proof. exact metrics_example. Qed.

(** Points with a negative true label (such as -1 for noise) are dropped silently, and if all are
    negative there is an exception instead of metrics. *)
Theorem C77_negative_refuted : exists r m, new_result (noise_data [0; -1]%Z) (line [0]) (Some [0; 0]%Z) (Some 1) = Ok r /\
  get_clustering_metrics r = Ok m /\ num_points m = 1%Z /\ num_rows (datapoints (of_data r)) = 2%nat /\ false_pairs m = 0 /\
  how_many (fun p => negb (same_truth p)) (pairs (combine (labels r) [0; -1]%Z)) = 1%Z.
Proof. exact negative_refuted. Qed.
Print Assumptions C77_negative_refuted.
Theorem C77_all_negative_refuted : exists r, new_result (noise_data [-1; -1]%Z) (line [0]) (Some [0; 0]%Z) (Some 1) = Ok r /\ get_clustering_metrics r = Err ValueError.
Proof. exact all_negative_refuted. Qed.
Print Assumptions C77_all_negative_refuted.

(** C77: the whole algorithm, for any k-means: it returns only if the calibrated noise passed the
    accounting check for the depth of its tree, its centers are those of the private coreset with this
    noise, and its labels and its loss are those of the original data. *)
Theorem C77_algorithm : forall Phi ppf mixture_pld fast_len fuel brentq dlaplace normal projections kmeans k d radius eps delta tree m r,
  (forall k core w c, kmeans k core w = Ok c -> forall u v, In u c -> In v c -> List.length u = List.length v) ->
  private_lsh_clustering Phi ppf mixture_pld fast_len fuel brentq dlaplace normal projections kmeans k d radius eps delta tree m = Ok r ->
  let depth := match tree with None => 20%Z | Some tp => max_depth tp end in
  exists pc s, new_calculator Phi ppf mixture_pld fast_len fuel brentq eps delta radius depth m = Ok pc /\
    validate_accounting Phi ppf mixture_pld fast_len fuel pc eps delta depth = Ok tt /\
    cluster_with dlaplace normal projections kmeans pc k (cols (datapoints d)) radius
      (combine (seq 0 (num_rows (datapoints d))) (rows (datapoints d))) tree depth = Ok (rows (centers r), s) /\
    of_data r = d /\ Forall2 (closest (centers r)) (rows (datapoints d)) (labels r) /\
    loss r = cost (centers r) (rows (datapoints d)) (labels r) /\
    forall other, List.length other = num_rows (datapoints d) -> Forall (is_label (centers r)) other -> loss r <= cost (centers r) (rows (datapoints d)) other.
Proof. exact clustering_result. Qed.
Print Assumptions C77_algorithm.
Example C77_algorithm_example : forall Phi ppf mixture_pld fast_len fuel brentq dlaplace normal projections m, (forall j, List.length (normal j) = 1%nat) -> exists r,
  private_lsh_clustering Phi ppf mixture_pld fast_len fuel brentq dlaplace normal projections (fun _ core _ => Ok core) 1 (mkData (line [0; 1]) None) 1 PInf 0 (Some (mkTree 1 1 0)) m = Ok r.
Proof. exact clustering_example. Qed.
