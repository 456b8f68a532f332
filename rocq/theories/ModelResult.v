(** Model of the results of the clustering: ClusteringResult, ClusteringMetrics and
    private_lsh_clustering in learning/clustering/clustering_algorithm.py ("algorithm"), and Data
    in clustering_params.py ("params").  Labels are integers; floats are reals. *)
From Verif Require Import Base XReal Exn ModelPld ModelCluster ModelCalculator TypesCluster.

(** An array of shape (n, cols): its rows. *)
Record matrix := mkMatrix { rows : list vec; cols : nat }.

(** params 154-180, Data: the datapoints, whose shape gives num_points and dim, and the labels. *)
Record data := mkData { datapoints : matrix; true_labels : option (list Z) }.
Definition num_rows (m : matrix) : nat := List.length (rows m).
Definition new_data (points : matrix) (labels : option (list Z)) : res data :=
  match labels with
  | Some l => if Nat.eqb (List.length l) (num_rows points) then Ok (mkData points labels) else Err ValueError
  | None => Ok (mkData points labels)
  end.

(** algorithm 106-120, ClusteringResult: its fields. *)
Record result := mkResult { of_data : data; centers : matrix; labels : list Z; loss : R }.

(** np.argmin of a list of numbers with its value: the first smallest; raises for an empty list. *)
Fixpoint argmin_from (best : R) (at_best next : Z) (l : list R) : Z * R :=
  match l with
  | [] => (at_best, best)
  | x :: l => if Rltb x best then argmin_from x next (next + 1) l else argmin_from best at_best (next + 1) l
  end.
Definition argmin (l : list R) : res (Z * R) :=
  match l with [] => Err ValueError | x :: l => Ok (argmin_from x 0 1 l) end.

(** algorithm 124-132, [closest_center].  numpy also subtracts arrays if one of the dimensions is
    1; the result is then rejected with the same exception in lines 146-149. *)
Definition sq_norm (u : vec) : R := rsum (fun x => x * x) u.
Definition vsub (u v : vec) : vec := map (fun p => fst p - snd p) (combine u v).
Definition closest_center (c : matrix) (x : vec) : res (Z * R) :=
  if Nat.eqb (cols c) (List.length x) then argmin (map (fun u => sq_norm (vsub u x)) (rows c)) else Err ValueError.

Fixpoint map_res {A B} (f : A -> res B) (l : list A) : res (list B) :=
  match l with
  | [] => Ok []
  | a :: l => let? b := f a in let? bs := map_res f l in Ok (b :: bs)
  end.

(** algorithm 122-152, [__post_init__]. *)
Definition new_result (d : data) (c : matrix) (ls : option (list Z)) (lo : option R) : res result :=
  let? (ls, lo) :=
    match ls, lo with
    | None, None =>
        let? r := map_res (closest_center c) (rows (datapoints d)) in
        Ok (Some (map fst r), Some (rsum snd r))
    | _, _ => Ok (ls, lo)
    end in
  match ls, lo with
  | Some ls, Some lo =>
      if negb (Nat.eqb (num_rows (datapoints d)) (List.length ls)) then Err ValueError
      else if negb (Nat.eqb (cols c) (cols (datapoints d))) then Err ValueError
      else if negb (forallb (fun l => (0 <=? l)%Z && (l <? Z.of_nat (num_rows c))%Z)%bool ls) then Err ValueError
      else Ok (mkResult d c ls lo)
  | _, _ => Err ValueError
  end.

(** np.arange(start, stop, 1). *)
Definition arange (start stop : R) : list R :=
  map (fun i => start + INR i) (seq 0 (Z.to_nat (Rceil (stop - start)))).
(** np.histogram2d: is [x] in the [i]-th bin?  The last bin includes its upper edge.
    The last edge of an empty list of edges does not exist. *)
Definition in_bin (edges : list R) (i : nat) (x : R) : bool :=
  (Rleb (nth i edges 0) x &&
    (Rltb x (nth (S i) edges 0) || (Nat.eqb (S (S i)) (List.length edges) && Reqb x (nth (S i) edges 0))))%bool.
Definition histogram2d (xs ys : list R) (xedges yedges : list R) : res (list (list Z)) :=
  match xedges, yedges with
  | [], _ | _, [] => Err IndexError
  | _, _ => Ok (
      map (fun i => map (fun j =>
          Z.of_nat (List.length (filter (fun p => in_bin xedges i (fst p) && in_bin yedges j (snd p))%bool (combine xs ys))))
        (seq 0 (List.length yedges - 1))) (seq 0 (List.length xedges - 1)))
  end.
(** np.max of integers; raises for an empty array. *)
Definition np_max (l : list Z) : res Z :=
  match l with [] => Err ValueError | x :: l => Ok (fold_left Z.max l x) end.

(** algorithm 154-180, [cross_label_histogram]. *)
Definition cross_label_histogram (r : result) : res (list (list Z)) :=
  match true_labels (of_data r) with
  | None => Err ValueError
  | Some ts =>
      let? a := np_max (labels r) in
      let? b := np_max ts in
      histogram2d (map IZR (labels r)) (map IZR ts) (arange (- (1 / 2)) (IZR a + 1)) (arange (- (1 / 2)) (IZR b + 1))
  end.

(** algorithm 68-77, ClusteringMetrics: the fields.  Quotients are numpy's: 0 / 0 is NaN. *)
Record metrics := mkMetrics {
  num_points : Z; dominant_label_correct_count : Z; dominant_label_accuracy : xr;
  true_pairs : R; true_nonmatch_count : R; true_nonmatch_frac : xr;
  false_pairs : R; false_match_count : R; false_match_frac : xr }.
Definition zsum (l : list Z) : Z := fold_right Z.add 0%Z l.
Definition column (h : list (list Z)) (j : nat) : list Z := map (fun row => nth j row 0%Z) h.
(** algorithm 79-103, [ClusteringMetrics.__init__]; [width] is the number of columns. *)
Definition new_metrics (width : nat) (h : list (list Z)) : res metrics :=
  let n := zsum (concat h) in
  let hist_square_sum := zsum (map (fun x => x * x)%Z (concat h)) in
  let num_pairs := IZR n * (IZR n - 1) / 2 in
  let? maxima := map_res np_max h in
  let correct := zsum maxima in
  let true_count := map (fun j => zsum (column h j)) (seq 0 width) in
  let tp := rsum (fun c => IZR c * (IZR c - 1) / 2) true_count in
  let nonmatch := (IZR (zsum (map (fun x => x * x)%Z true_count)) - IZR hist_square_sum) / 2 in
  let cluster_count := map zsum h in
  let fp := num_pairs - tp in
  let match_count := (IZR (zsum (map (fun x => x * x)%Z cluster_count)) - IZR hist_square_sum) / 2 in
  Ok (mkMetrics n correct (xdiv (Fin (IZR correct)) (Fin (IZR n)))
        tp nonmatch (xdiv (Fin nonmatch) (Fin tp)) fp match_count (xdiv (Fin match_count) (Fin fp))).

(** algorithm 182-188, [get_clustering_metrics]; the shape of the histogram. *)
Definition get_clustering_metrics (r : result) : res metrics :=
  let? h := cross_label_histogram r in
  new_metrics (List.length (hd [] h)) h.

(** algorithm 191-273, [private_lsh_clustering]: the calculator is validated before the data are
    used; the result is computed for the original data. *)
Definition private_lsh_clustering (Phi ppf : R -> R) (mixture_pld : xr -> list xr -> list xr -> res pld)
    (fast_len : nat -> nat) (fuel : nat) (brentq : (R -> res xr) -> R -> R -> R -> ModelSearch.brent_out)
    (dlaplace : nat -> Z) (normal projections : nat -> vec) (kmeans : Z -> list vec -> list Z -> res (list vec))
    (k : Z) (d : data) (radius : R) (eps : xr) (delta : R) (tree : option tree_param) (m : multiplier) : res result :=
  let depth := match tree with None => 20%Z | Some tp => max_depth tp end in
  let? pc := new_calculator Phi ppf mixture_pld fast_len fuel brentq eps delta radius depth m in
  let? _ := validate_accounting Phi ppf mixture_pld fast_len fuel pc eps delta depth in
  let? (c, _) := cluster_with dlaplace normal projections kmeans pc k (cols (datapoints d)) radius
    (combine (seq 0 (num_rows (datapoints d))) (rows (datapoints d))) tree depth in
  new_result d (mkMatrix c (match c with [] => 0%nat | u :: _ => List.length u end)) None None.
