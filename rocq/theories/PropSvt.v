(** C52: the sparse vector mechanisms. *)
From Verif Require Import Base Exn TypesSvt ModelSvt SpecSvt ProofSvt.

(** C52: in every sample at most max_answered_queries reports are above the threshold; a query is
    answered with no response exactly when that many were above before it. *)
Theorem C52_cutoff : forall tn qn k c data n out,
  svt_call tn qn k c data n = Ok out -> (0 < num_queries c)%nat ->
  List.length out = n /\
  forall i, (i < n)%nat ->
    List.length (nth i out []) = num_queries c
    /\ (count_above (nth i out []) <= Z.to_nat (max_answered_queries c))%nat
    /\ forall j, (j < num_queries c)%nat ->
         (nth j (nth i out []) NoResponse = NoResponse
          <-> (Z.to_nat (max_answered_queries c) <= count_above (firstn j (nth i out [])))%nat).
Proof. exact cutoff_respected. Qed.
Print Assumptions C52_cutoff.
Example C52_cutoff_example :
  svt_call (fun _ => 0) svt_example_noise SVT1 svt_example_config [1; 5] 2
  = Ok [[BelowThreshold; BelowThreshold; AboveThreshold]; [BelowThreshold; AboveThreshold; NoResponse]].
Proof. exact svt_example. Qed.

(** C52: every sample is the run of the sequential algorithm with the documented noise, whatever
    the random numbers. *)
Theorem C52_sequential : forall tn qn k c data n out,
  svt_call tn qn k c data n = Ok out -> (0 < num_queries c)%nat ->
  exists vs, List.length vs = num_queries c
    /\ (forall j, (j < num_queries c)%nat -> query_value c data j (nth j vs 0))
    /\ 0 <= documented_threshold_scale k (IZR (max_answered_queries c)) (max_value c - min_value c) (svt_epsilon c)
    /\ 0 <= documented_query_scale k (IZR (max_answered_queries c)) (max_value c - min_value c) (svt_epsilon c)
    /\ out = map (fun i =>
         sparse_vector (shown k) (Z.to_nat (max_answered_queries c))
           (threshold c + documented_threshold_scale k (IZR (max_answered_queries c)) (max_value c - min_value c) (svt_epsilon c) * tn i)
           (map (fun j => nth j vs 0
             + documented_query_scale k (IZR (max_answered_queries c)) (max_value c - min_value c) (svt_epsilon c) * qn i j)
             (seq 0 (num_queries c)))) (seq 0 n).
Proof. exact call_rows. Qed.
Print Assumptions C52_sequential.
