(** Vocabulary for the influence of one row of the data on the clustering. *)
From Verif Require Import Base TypesCluster ModelCluster.

(** The names of the rows; the data without the row named [i]. *)
Definition names (l : list point) : list nat := map fst l.
Definition without (i : nat) (l : list point) : list point := filter (fun p : point => negb (Nat.eqb (fst p) i)) l.

(** A noisy value was computed from rows one of which is [i]; how many noisy counts (sums) of a
    trace were. *)
Definition rows_of (r : release) : list point := match r with CountRelease p _ => p | SumRelease p _ => p end.
Definition uses (i : nat) (r : release) : bool := existsb (fun p : point => Nat.eqb (fst p) i) (rows_of r).
Definition counts_with (i : nat) (s : trace) : nat := List.length (filter (fun r => is_count r && uses i r) s).
Definition sums_with (i : nat) (s : trace) : nat := List.length (filter (fun r => negb (is_count r) && uses i r) s).

(** Rows and noise of dimension [dim]. *)
Definition rows_ok (dim : nat) (l : list point) : Prop :=
  NoDup (names l) /\ forall p, In p l -> List.length (snd p) = dim.
Definition noise_ok (dim : nat) (normal : nat -> vec) : Prop := forall j, List.length (normal j) = dim.

(** Two sequences of integers that differ by at most 1, at no more than [m] places; two sequences of
    vectors that differ at no more than one place, by a vector of norm at most [r]. *)
Definition shifted (m : nat) (n n' : nat -> Z) : Prop :=
  (forall j, Z.abs (n' j - n j) <= 1)%Z /\
  exists places, (List.length places <= m)%nat /\ forall j, ~ In j places -> n' j = n j.
Definition moved (r : R) (g g' : nat -> vec) : Prop :=
  exists place x, norm x <= r /\ g' place = vadd (g place) x /\ forall j, j <> place -> g' j = g j.

(** [tree] is a tree parameter with valid thresholds and a depth of at most [depth] (None: the
    default). *)
Definition tree_ok (tree : option tree_param) (depth : Z) : Prop :=
  (0 <= depth)%Z /\
  match tree with Some tp => (1 <= min_node tp <= min_branching tp)%Z /\ max_depth tp = depth | None => True end.

(** The likelihood of the first [N] of some integers under noise in which the probability of [k] is
    proportional to e^(-a |k|), as in [dlaplace_weights]. *)
Definition count_likelihood (a : R) (n : nat -> Z) (N : nat) : R :=
  fold_right Rmult 1 (map (fun j => exp (- a * Rabs (IZR (n j)))) (seq 0 N)).

(** The Euclidean length of a vector, and a multiple of it. *)
Definition euclidean (u : vec) : R := sqrt (rsum (fun x => x * x) u).
Definition times (c : R) (u : vec) : vec := map (fun x => c * x) u.
(** [v] is [u], moved along its own direction to the ball of radius [r] if it is outside. *)
Definition clipped_to (r : R) (u v : vec) : Prop :=
  (euclidean u <= r -> v = u) /\ (r < euclidean u -> euclidean v = r /\ exists c, 0 < c < 1 /\ v = times c u).
