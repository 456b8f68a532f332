(** Data of the clustering model (learning/clustering). *)
From Verif Require Import Base XReal.

Definition vec := list R.
(** A row of a data set: its coordinates, and a name that the code does not look at. *)
Definition point := (nat * vec)%type.

(** clustering_params.py 125-139, TreeParam: the three fields. *)
Record tree_param := mkTree { min_branching : Z; min_node : Z; max_depth : Z }.

(** clustering_params.py 69-91, PrivacyCalculatorMultiplier. *)
Record multiplier := mkMult { gaussian_multiplier : R; laplace_multiplier : R }.

(** central_privacy_utils.py 22-39 and 70-80, AveragePrivacyParam and CountPrivacyParam: the
    attributes of a PrivacyCalculator (privacy_calculator.py 99-108). *)
Record calculator := mkCalc { gaussian_std_dev : R; sensitivity : R; laplace_param : xr }.

(** lsh_tree.py 30-53, LshTreeNode; the prefix is the sequence of its hash characters, true
    for "1".  coreset_param and sim_hash are the same for all nodes of a tree; private_average is
    computed once per node (see [get_private_coreset]). *)
Record node := mkNode { hash_prefix : list bool; nonprivate_points : list point; private_count : Z }.

(** One computation of a noisy value from the data: a count, or a sum that is then divided by the
    count of its node. *)
Inductive release :=
| CountRelease (of : list point) (value : Z)
| SumRelease (of : list point) (noisy_sum : vec).
