(** The sparse vector technique as the papers and the docstrings describe it. *)
From Verif Require Import Base TypesSvt.

(** One run: the queries are compared with one noisy threshold, in order, until [answers] of them
    were reported above it; from then on nothing is reported.  [show] is the report of a query
    above the threshold. *)
Fixpoint sparse_vector (show : R -> svt_value) (answers : nat) (threshold : R) (queries : list R) : list svt_value :=
  match queries, answers with
  | [], _ => []
  | _ :: queries, O => NoResponse :: sparse_vector show O threshold queries
  | q :: queries, S n =>
      if Rleb threshold q then show q :: sparse_vector show n threshold queries
      else BelowThreshold :: sparse_vector show (S n) threshold queries
  end.

(** SVT3 reports the noisy query, the others only that it is above. *)
Definition shown (k : svt_class) (q : R) : svt_value :=
  match k with SVT3 => QueryValue q | _ => AboveThreshold end.
(** The scales of the noise in the docstrings: of a query and of the threshold. *)
Definition documented_query_scale (k : svt_class) (answers sensitivity epsilon : R) : R :=
  match k with
  | SVT1 | SVT2 => 4 * answers * sensitivity / epsilon
  | SVT3 => 2 * answers * sensitivity / epsilon
  | SVT4 => 4 * sensitivity / (3 * epsilon)
  | SVT5 => 0
  | SVT6 => 2 * sensitivity / epsilon
  end.
Definition documented_threshold_scale (k : svt_class) (answers sensitivity epsilon : R) : R :=
  match k with
  | SVT2 => 2 * answers * sensitivity / epsilon
  | SVT4 => 4 * sensitivity / epsilon
  | _ => 2 * sensitivity / epsilon
  end.

(** Reports that a query is above the threshold. *)
Definition is_above (v : svt_value) : bool :=
  match v with AboveThreshold | QueryValue _ => true | _ => false end.
Definition count_above (l : list svt_value) : nat := List.length (filter is_above l).

(** The value of query [j] on a dataset. *)
Definition clamp (c : svt_config) (x : R) : R := Rmin (Rmax x (min_value c)) (max_value c).
Definition query_value (c : svt_config) (data : list R) (j : nat) (v : R) : Prop :=
  match svt_query c with
  | QUERY_TYPE_SUM => v = rsum (clamp c) data
  | QUERY_TYPE_REVEAL_RECORDS =>
      exists front second last, data = front ++ [second; last]
        /\ v = clamp c (if (S j =? num_queries c)%nat then second else last)
  | QUERY_TYPE_UNSPECIFIED => False
  end.
