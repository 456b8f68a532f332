(** Data of the model of the sparse vector technique (dp_auditorium). *)
From Verif Require Import Base.

(** mechanism_config.py 80-86, QueryType. *)
Inductive query_type := QUERY_TYPE_UNSPECIFIED | QUERY_TYPE_SUM | QUERY_TYPE_REVEAL_RECORDS.
(** mechanism_config.py 104-131, SVTMechanismConfig. *)
Record svt_config := mkSvt {
  svt_epsilon : R; max_value : R; min_value : R; svt_query : query_type;
  num_queries : nat; threshold : R; max_answered_queries : Z }.
(** mechanism_config.py 89-101, DataValues; an entry of the output is one of them or, in SVT3, a
    noisy query. *)
Inductive svt_value := NoResponse | AboveThreshold | BelowThreshold | QueryValue (x : R).
(** The classes SVT1 to SVT6. *)
Inductive svt_class := SVT1 | SVT2 | SVT3 | SVT4 | SVT5 | SVT6.
