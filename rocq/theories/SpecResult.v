(** Specification vocabulary for the result of a clustering and its metrics. *)
From Verif Require Import Base XReal Exn TypesCluster ModelResult.

(** The squared distance of two points with [dim] coordinates. *)
Definition distance2 (dim : nat) (u v : vec) : R :=
  rsum (fun j => (nth j u 0 - nth j v 0) ^ 2) (seq 0 dim).
(** The distances of a point to the centers; the cost of giving every point a center. *)
Definition to_center (c : matrix) (x : vec) (i : Z) : R := distance2 (cols c) (nth (Z.to_nat i) (rows c) []) x.
Definition cost (c : matrix) (pts : list vec) (assigned : list Z) : R :=
  rsum (fun p => to_center c (fst p) (snd p)) (combine pts assigned).
(** Labels that name a center. *)
Definition is_label (c : matrix) (i : Z) : Prop := (0 <= i < Z.of_nat (num_rows c))%Z.
(** [i] is the first of the centers that are closest to [x]. *)
Definition closest (c : matrix) (x : vec) (i : Z) : Prop :=
  is_label c i /\ (forall j, is_label c j -> to_center c x i <= to_center c x j) /\
  (forall j, (0 <= j < i)%Z -> to_center c x i < to_center c x j).
(** All the rows have the declared number of coordinates. *)
Definition well_shaped (m : matrix) : Prop := Forall (fun u => List.length u = cols m) (rows m).

(** The unordered pairs of points, and the number of elements with a property. *)
Fixpoint pairs {A} (l : list A) : list (A * A) :=
  match l with [] => [] | x :: l => map (pair x) l ++ pairs l end.
Definition how_many {A} (P : A -> bool) (l : list A) : Z := Z.of_nat (List.length (filter P l)).
(** A labelled point: the label of its cluster and its true label. *)
Definition same_cluster (p : (Z * Z) * (Z * Z)) : bool := (fst (fst p) =? fst (snd p))%Z.
Definition same_truth (p : (Z * Z) * (Z * Z)) : bool := (snd (fst p) =? snd (snd p))%Z.
(** A fraction of a number of pairs; not a number if there are none. *)
Definition fraction (a b : Z) : xr := if (b =? 0)%Z then NaN else Fin (IZR a / IZR b).
(** What the metrics say about the labelled points [l]: the accuracy is that of the best naming of
    the clusters by true labels; the other counts are numbers of pairs of points. *)
Definition counts (l : list (Z * Z)) (m : metrics) : Prop :=
  num_points m = Z.of_nat (List.length l) /\
  (forall f : Z -> Z, (how_many (fun p => f (fst p) =? snd p)%Z l <= dominant_label_correct_count m)%Z) /\
  (exists f : Z -> Z, how_many (fun p => f (fst p) =? snd p)%Z l = dominant_label_correct_count m) /\
  dominant_label_accuracy m = fraction (dominant_label_correct_count m) (Z.of_nat (List.length l)) /\
  let tp := how_many same_truth (pairs l) in
  let tn := how_many (fun p => same_truth p && negb (same_cluster p))%bool (pairs l) in
  let fp := how_many (fun p => negb (same_truth p)) (pairs l) in
  let fm := how_many (fun p => same_cluster p && negb (same_truth p))%bool (pairs l) in
  true_pairs m = IZR tp /\ true_nonmatch_count m = IZR tn /\ true_nonmatch_frac m = fraction tn tp /\
  false_pairs m = IZR fp /\ false_match_count m = IZR fm /\ false_match_frac m = fraction fm fp.

