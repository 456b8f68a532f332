(** C65: the privacy of the sparse vector mechanisms. *)
From Verif Require Import Base Exn TypesSvt ModelSvt SpecDP SpecMech SpecSvt SpecRun ProofSvtDp ProofSvtTight ProofSvt3.
Local Open Scope R_scope.

(** C65: which noise gives which row of reports; [row_law] is the probability of exactly this. *)
Theorem C65_events : forall tn qn k c data out vs bt bq,
  svt_call tn qn k c data 1 = Ok [out] -> (0 < num_queries c)%nat -> k <> SVT3 ->
  query_values c data = Ok vs -> laplace_scale (threshold_scale k c) = Ok bt ->
  match query_scale k c with Some qs => laplace_scale qs = Ok bq | None => bq = 0 end ->
  forall row, out = row <->
    List.length row = List.length vs /\ possible (Z.to_nat (max_answered_queries c)) row = true /\
    forall j, (j < List.length vs)%nat -> agrees (threshold c + bt * tn 0%nat) (nth j vs 0) (bq * qn 0%nat j) (nth j row NoResponse).
Proof. exact svt_events. Qed.
Print Assumptions C65_events.

(** C65: SVT1 and SVT2 are epsilon-differentially private, SVT4 has the guarantee of its docstring
    and SVT6 that of its cutoff. *)
Theorem C65_private : forall k c d d' vs vs' bt bq qs p p',
  reports_only k = true -> 0 < svt_epsilon c -> min_value c < max_value c -> (0 < max_answered_queries c)%Z ->
  svt_neighbours c d d' -> query_values c d = Ok vs -> query_values c d' = Ok vs' ->
  laplace_scale (threshold_scale k c) = Ok bt -> query_scale k c = Some qs -> laplace_scale qs = Ok bq ->
  row_law bt bq (Z.to_nat (max_answered_queries c)) (threshold c) vs p ->
  row_law bt bq (Z.to_nat (max_answered_queries c)) (threshold c) vs' p' ->
  let E := mkExper (list svt_value) (rows (List.length vs)) p p' in
  valid E /\ dp_both E (svt_guarantee k (IZR (max_answered_queries c)) (svt_epsilon c)) 0.
Proof. exact svt_private. Qed.
Print Assumptions C65_private.
Example C65_private_example : forall bt bq a t0 vs, 0 < bt -> 0 < bq -> exists p, row_law bt bq a t0 vs p.
Proof. exact row_law_exists. Qed.

(** C65: with one answer no smaller guarantee holds.  In particular SVT4 is not
    epsilon-differentially private: the guarantee of its docstring is weaker than that. *)
Theorem C65_tight : forall k e eps,
  (k = SVT1 \/ k = SVT2 \/ k = SVT4 \/ k = SVT6) -> 0 < e -> eps < svt_guarantee k 1 e ->
  exists n vs vs' bt bq qs p p',
    let c := mkSvt e 1 0 QUERY_TYPE_REVEAL_RECORDS n 0 1 in
    query_values c [0; 1; 0] = Ok vs /\ query_values c [0; 1] = Ok vs' /\
    laplace_scale (threshold_scale k c) = Ok bt /\ query_scale k c = Some qs /\ laplace_scale qs = Ok bq /\
    row_law bt bq 1 (threshold c) vs p /\ row_law bt bq 1 (threshold c) vs' p' /\
    ~ dp (mkExper (list svt_value) (rows (List.length vs)) p p') eps 0.
Proof. exact svt_tight_reached. Qed.
Print Assumptions C65_tight.
Example C65_tight_example : svt_guarantee SVT4 1 1 = 7 / 4.
Proof. unfold svt_guarantee. field. Qed.

(** C65: SVT5 is not private for any epsilon, as its docstring warns: a row of positive
    probability on one dataset is impossible on the dataset without the last record. *)
Theorem C65_svt5_refuted : forall e n t m, 0 < e -> (2 <= n)%nat -> (0 < m)%Z ->
  exists row a b, a < b /\ 0 < laplace_law 1 b - laplace_law 1 a /\
    forall tn qn,
      (a < tn 0%nat <= b -> svt_call tn qn SVT5 (mkSvt e 1 0 QUERY_TYPE_REVEAL_RECORDS n t m) [0; 1; 0] 1 = Ok [row]) /\
      svt_call tn qn SVT5 (mkSvt e 1 0 QUERY_TYPE_REVEAL_RECORDS n t m) [0; 1] 1 <> Ok [row].
Proof. exact svt5_not_private. Qed.
Print Assumptions C65_svt5_refuted.

(** C65: the declared sensitivity of the sum query does not cover an added record; with equal
    bounds no noise at all is added and the reports give the record away. *)
Theorem C65_added_record_refuted : forall k tn qn, k <> SVT3 ->
  svt_call tn qn k (mkSvt 1 1 1 QUERY_TYPE_SUM 1 1 1) [] 1 = Ok [[BelowThreshold]] /\
  svt_call tn qn k (mkSvt 1 1 1 QUERY_TYPE_SUM 1 1 1) [1] 1 = Ok [[AboveThreshold]].
Proof. exact sum_not_private. Qed.
Print Assumptions C65_added_record_refuted.

(** C65: SVT3 reports noisy values.  Which noise gives the event that the last query is the first one
    above the threshold, with a value of at most [u]; [last_at_most_law] is the probability of this. *)
Theorem C65_svt3_events : forall tn qn c data out vs v bt bq qs u,
  svt_call tn qn SVT3 c data 1 = Ok [out] -> (0 < num_queries c)%nat -> (0 < max_answered_queries c)%Z ->
  query_values c data = Ok (vs ++ [v]) -> laplace_scale (threshold_scale SVT3 c) = Ok bt ->
  query_scale SVT3 c = Some qs -> laplace_scale qs = Ok bq ->
  ((exists x, out = repeat BelowThreshold (List.length vs) ++ [QueryValue x] /\ x <= u) <->
   last_at_most (threshold c + bt * tn 0%nat) vs v (fun j => bq * qn 0%nat j) u).
Proof. exact svt3_events. Qed.
Print Assumptions C65_svt3_events.
Example C65_svt3_example : svt_call (fun _ => 0) (fun _ j => if (j =? 1)%nat then -1 else -1/2) SVT3 (mkSvt 2 1 0 QUERY_TYPE_REVEAL_RECORDS 2 (-1) 1) [0; 1] 1
  = Ok [[QueryValue (1 + 2 * 1 * (1 - 0) / 2 * (-1/2)); NoResponse]].
Proof. exact svt3_example. Qed.

(** C65: SVT3 is not private for any epsilon, as its docstring warns: with enough queries that event is
    more than e^eps times as likely on one dataset as on the dataset without the last record. *)
Theorem C65_svt3_refuted : forall e m eps, 0 < e -> (0 < m)%Z -> exists n bt bq qs p p',
  let c := mkSvt e 1 0 QUERY_TYPE_REVEAL_RECORDS (S n) 0 m in
  query_values c [0; 1; 0] = Ok (repeat 0 n ++ [1]) /\ query_values c [0; 1] = Ok (repeat 1 n ++ [0]) /\
  laplace_scale (threshold_scale SVT3 c) = Ok bt /\ query_scale SVT3 c = Some qs /\ laplace_scale qs = Ok bq /\
  last_at_most_law bt bq (threshold c) (repeat 0 n) 1 0 p /\ last_at_most_law bt bq (threshold c) (repeat 1 n) 0 0 p' /\
  0 < p' /\ exp eps * p' < p.
Proof. exact svt3_not_private. Qed.
Print Assumptions C65_svt3_refuted.
