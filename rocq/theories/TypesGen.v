(** Data of the model of the dataset generators (dp_auditorium). *)
From Coq Require Import String.
From Verif Require Import Base.

(** A trial of Vizier: an identifier and the suggested parameters by name. *)
Record trial := mkTrial { trial_id : nat; trial_parameters : list (string * R) }.
(** configs/dataset_generator_config.py 20-23, DataType. *)
Inductive data_type := DATA_TYPE_UNSPECIFIED | DATA_TYPE_INT32 | DATA_TYPE_FLOAT.
(** dataset_generator_config.py 26-56, VizierDatasetGeneratorConfig; strings that are only passed to
    Vizier (names, search algorithm, metric) are omitted, and the number of parameters is a natural
    number. *)
Record vizier_config := mkVizierConfig { num_vizier_parameters : nat; vc_type : data_type; vc_min : R; vc_max : R }.
(** dataset_generator_config.py 59-94, ClassificationDatasetGeneratorConfig, likewise. *)
Record class_config := mkClassConfig { cc_min : R; cc_max : R; sample_dim : nat; num_samples_cc : nat; num_classes : nat }.
(** A parameter of a search space: name and bounds. *)
Inductive param := FloatParam (name : string) (lo hi : R) | IntParam (name : string) (lo hi : Z).
(** The attributes of a generator. *)
Record gen_state := mkGen { str_to_idx : list (string * nat); num_params : nat; trial_loaded : bool; last_trial : option trial }.
