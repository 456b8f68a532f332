(** Specification vocabulary for the privacy calculator of the clustering: the queries that the
    accounting is about.  Nothing here refers to the code. *)
From Verif Require Import Base XReal SpecDP SpecMech SpecNoiseAcc.

(** One sum of sensitivity [sens] with Gaussian noise of standard deviation [sd], and [n] counts
    of sensitivity 1 with Laplace noise of scale [b]; each may depend on the results before. *)
Definition clustering_queries (Phi : R -> R) (sd sens b : R) (n : nat) : list (exper -> Prop) :=
  noisy_query any_value (normal_law Phi sd) 1 sens :: repeat (noisy_query any_value (laplace_law b) 1 1) n.
(** The queries that the clustering makes: its counts get integer noise, of distribution [F]. *)
Definition released_queries (Phi : R -> R) (sd sens : R) (F : R -> R) (n : nat) : list (exper -> Prop) :=
  noisy_query any_value (normal_law Phi sd) 1 sens :: repeat (noisy_query integer_value F 1 1) n.
