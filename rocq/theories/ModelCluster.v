(** Model of the private LSH clustering in learning/clustering: clustering_params.py ("params"),
    central_privacy_utils.py ("utils"), lsh.py ("lsh"), lsh_tree.py ("tree"),
    default_clustering_params.py ("default") and clustering_algorithm.py ("algorithm").
    Arrays of shape (n, dim) are lists of rows; floats are reals; radius is not 0. *)
From Verif Require Import Base XReal Exn TypesCluster.

Definition vadd (u v : vec) : vec := map (fun p => fst p + snd p) (combine u v).
Definition vscale (c : R) (u : vec) : vec := map (Rmult c) u.
(** np.matmul of two rows, np.linalg.norm of a row, np.sum of rows over axis 0. *)
Definition dot (u v : vec) : R := rsum (fun p => fst p * snd p) (combine u v).
Definition norm (u : vec) : R := sqrt (dot u u).
Definition vsum (dim : nat) (l : list vec) : vec := fold_left vadd l (repeat 0 dim).

(** params 195-201: the rescaled row. *)
Definition clip_row (radius : R) (u : vec) : vec := vscale (radius / Rmax (norm u) radius) u.
(** params 182-201, [Data.clip_by_radius]; np.min raises for an array without elements (197). *)
Definition clip_by_radius (radius : R) (l : list vec) : res (list vec) :=
  match l with [] => Err ValueError | _ => Ok (map (clip_row radius) l) end.
(** The same for rows with names. *)
Definition clip_points (radius : R) (l : list point) : res (list point) :=
  match l with [] => Err ValueError | _ => Ok (map (fun p => (fst p, clip_row radius (snd p))) l) end.

(** params 125-149, TreeParam with its checks. *)
Definition new_tree_param (branching inner depth : Z) : res tree_param :=
  if (inner <? 1)%Z then Err ValueError
  else if (branching <? inner)%Z then Err ValueError
  else Ok (mkTree branching inner depth).

(** The noisy values computed so far; the numbers of counts and of sums among them. *)
Definition trace := list release.
Definition is_count (r : release) : bool := match r with CountRelease _ _ => true | _ => false end.
Definition count_calls (s : trace) : nat := List.length (filter is_count s).
Definition sum_calls (s : trace) : nat := List.length (filter (fun r => negb (is_count r)) s).

(** utils 83-99, the value of the j-th call of [get_private_count]; [dlaplace j] is what
    stats.dlaplace.rvs then returns. *)
Definition noisy_count (dlaplace : nat -> Z) (pc : calculator) (j : nat) (pts : list point) : Z :=
  let n := Z.of_nat (List.length pts) in
  if xeqb (laplace_param pc) PInf then n else (n + dlaplace j)%Z.
(** utils 62-66, the noisy sum in the j-th call of [get_private_average]; [normal j] is what
    np.random.normal then returns (zeros, if the standard deviation is 0). *)
Definition noisy_sum (normal : nat -> vec) (dim : nat) (j : nat) (pts : list point) : vec :=
  vadd (vsum dim (map snd pts)) (normal j).

Section Tree.
  (** The values of the j-th count and of the j-th sum, of the given points (the two functions
      above), and the random projections of SimHash (lsh 48-51). *)
  Context (count_of : nat -> list point -> Z) (sum_of : nat -> list point -> vec).
  Context (projections : nat -> vec) (tp : tree_param).

  (** utils 83-99, [get_private_count]. *)
  Definition get_private_count (pts : list point) (s : trace) : Z * trace :=
    let v := count_of (count_calls s) pts in (v, s ++ [CountRelease pts v]).

  (** utils 42-67, [get_private_average]. *)
  Definition get_private_average (pts : list point) (count : Z) (s : trace) : res (vec * trace) :=
    if (count <? 1)%Z then Err ValueError else
    let v := sum_of (sum_calls s) pts in
    Ok (vscale (/ IZR count) v, s ++ [SumRelease pts v]).

  (** lsh 53-78, [group_by_next_hash]: the points with the next characters "0" and "1". *)
  Definition group_by_next_hash (pts : list point) (prefix : list bool) : res (list point * list point) :=
    if (max_depth tp <=? Z.of_nat (List.length prefix))%Z then Err ValueError else
    let v := projections (List.length prefix) in
    Ok (filter (fun p : point => Rleb 0 (dot (snd p) v)) pts, filter (fun p : point => Rltb (dot (snd p) v) 0) pts).

  (** tree 30-53, a new node without a count. *)
  Definition new_node (prefix : list bool) (pts : list point) (s : trace) : node * trace :=
    let (c, s) := get_private_count pts s in (mkNode prefix pts c, s).

  (** tree 79-93, [children]. *)
  Definition children (n : node) (s : trace) : res (list node * trace) :=
    let? (zero, one) := group_by_next_hash (nonprivate_points n) (hash_prefix n) in
    let (a, s) := new_node (hash_prefix n ++ [false]) zero s in
    let (b, s) := new_node (hash_prefix n ++ [true]) one s in
    Ok ([a; b], s).

  (** tree 210-212: all the children of some nodes. *)
  Fixpoint all_children (l : list node) (s : trace) : res (list node * trace) :=
    match l with
    | [] => Ok ([], s)
    | n :: l =>
        let? (c, s) := children n s in
        let? (r, s) := all_children l s in
        Ok (c ++ r, s)
    end.
  (** tree 203-218, [get_next_level]. *)
  Definition get_next_level (l : list node) (s : trace) : res (list node * trace) :=
    let? (c, s) := all_children l s in
    Ok (filter (fun n => (min_node tp <=? private_count n)%Z) c, s).
  (** tree 189-201, [filter_branching_nodes]. *)
  Definition filter_branching_nodes (l : list node) : list node :=
    filter (fun n => (min_branching tp <=? private_count n)%Z) l.

  (** tree 147-160: the levels below [level], at most [n] of them. *)
  Fixpoint grow (n : nat) (level : list node) (s : trace) : res (list (list node) * trace) :=
    match n with
    | O => Ok ([], s)
    | S n =>
        let? (next, s) := get_next_level (filter_branching_nodes level) s in
        match next with
        | [] => Ok ([], s)
        | _ => let? (rest, s) := grow n next s in Ok (next :: rest, s)
        end
    end.

  (** tree 169-187, [is_leaf]; the levels of [tree] are numbered from 0. *)
  Definition prefix_eqb (p q : list bool) : bool := if list_eq_dec bool_dec p q then true else false.
  Definition is_leaf (tree : list (list node)) (n : node) : bool :=
    let below := S (List.length (hash_prefix n)) in
    if (List.length tree - 1 <? below)%nat then true
    else negb (existsb (fun c => prefix_eqb (hash_prefix n) (removelast (hash_prefix c))) (nth below tree [])).

  (** tree 136-167, [LshTree]: the leaves. *)
  Definition lsh_tree_leaves (root : node) (s : trace) : res (list node * trace) :=
    if (private_count root <? 1)%Z then Err ValueError else
    let? (rest, s) := grow (Z.to_nat (max_depth tp)) [root] s in
    let tree := [root] :: rest in
    Ok (flat_map (filter (is_leaf tree)) tree, s).

  (** algorithm 295-299, tree 55-67: the private averages of the leaves. *)
  Fixpoint averages (l : list node) (s : trace) : res (list vec * trace) :=
    match l with
    | [] => Ok ([], s)
    | n :: l =>
        let? (v, s) := get_private_average (nonprivate_points n) (private_count n) s in
        let? (r, s) := averages l s in
        Ok (v :: r, s)
    end.

  (** algorithm 276-308, [get_private_coreset]: the coreset points and their weights.  np.random
      raises for a negative number of projections (tree 121, lsh 48-51). *)
  Definition get_private_coreset (radius : R) (pts : list point) (count : option Z) (s : trace)
    : res (list vec * list Z * trace) :=
    if (max_depth tp <? 0)%Z then Err ValueError else
    let (root, s) := match count with
                     | Some c => (mkNode [] pts c, s)
                     | None => new_node [] pts s
                     end in
    let root := mkNode (hash_prefix root) (nonprivate_points root) (Z.max 1 (private_count root)) in
    let? (leaves, s) := lsh_tree_leaves root s in
    let? (avgs, s) := averages leaves s in
    let? core := clip_by_radius radius avgs in
    Ok (core, map private_count leaves, s).
End Tree.

(** Python [int(x)] of a float. *)
Definition Rtrunc (x : R) : Z := if Rltb x 0 then (- Rfloor (- x))%Z else Rfloor x.

Section Algorithm.
  Context (count_of : nat -> list point -> Z) (sum_of : nat -> list point -> vec) (projections : nat -> vec).

  (** default 26-66, [default_tree_param]. *)
  Definition default_tree_param (k : Z) (pts : list point) (dim : nat) (pc : calculator) (depth : Z) (s : trace)
    : res (tree_param * Z * trace) :=
    let (count, s) := get_private_count count_of pts s in
    if Reqb (sensitivity pc) 0 then Err ZeroDivisionError else
    let low_noise := Rtrunc (10 * sqrt (INR dim) * gaussian_std_dev pc / sensitivity pc) in
    if (2 * k =? 0)%Z then Err ZeroDivisionError else
    let inner := Z.max 1 (Z.min low_noise (count / (2 * k))) in
    let? tp := new_tree_param (3 * inner) inner depth in
    Ok (tp, count, s).

  (** algorithm 247-258: the tree parameters. *)
  Definition choose_tree (pc : calculator) (k : Z) (dim : nat) (pts : list point) (tree : option tree_param) (depth : Z)
      (s : trace) : res (tree_param * option Z * trace) :=
    match tree with
    | Some tp => Ok (tp, None, s)
    | None => let? (tp, count, s) := default_tree_param k pts dim pc depth s in Ok (tp, Some count, s)
    end.

  (** algorithm 247-273, the part of [private_lsh_clustering] after the noise was chosen: the
      centers.  [kmeans] is sklearn's KMeans on the weighted coreset. *)
  Context (kmeans : Z -> list vec -> list Z -> res (list vec)).
  Definition cluster_from (pc : calculator) (k : Z) (dim : nat) (radius : R) (pts : list point)
      (tree : option tree_param) (depth : Z) (s : trace) : res (list vec * trace) :=
    let? (tp, count, s) := choose_tree pc k dim pts tree depth s in
    let? clipped := clip_points radius pts in
    let? (core, weights, s) := get_private_coreset count_of sum_of projections tp radius clipped count s in
    let? centers := kmeans (Z.min k (Z.of_nat (List.length core))) core weights in
    Ok (centers, s).
End Algorithm.

(** The same, with the noise. *)
Definition cluster_with (dlaplace : nat -> Z) (normal projections : nat -> vec)
    (kmeans : Z -> list vec -> list Z -> res (list vec)) (pc : calculator) (k : Z) (dim : nat) (radius : R)
    (pts : list point) (tree : option tree_param) (depth : Z) : res (list vec * trace) :=
  cluster_from (noisy_count dlaplace pc) (noisy_sum normal dim) projections kmeans pc k dim radius pts tree depth [].
