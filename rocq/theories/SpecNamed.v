(** Specification vocabulary for the conversion of events to named tuples. *)
From Verif Require Import Base TypesEvent TypesNamed ModelNamed.

(** The classes of dp_event.py. *)
Definition event_classes : list cls :=
  [ event_cls "NoOpDpEvent" []; event_cls "NonPrivateDpEvent" []; event_cls "UnsupportedDpEvent" [];
    event_cls "RandomizedResponseDpEvent" ["noise_parameter"; "num_buckets"];
    event_cls "GaussianDpEvent" ["noise_multiplier"]; event_cls "LaplaceDpEvent" ["noise_multiplier"];
    event_cls "SelfComposedDpEvent" ["event"; "count"]; event_cls "ComposedDpEvent" ["events"];
    event_cls "PoissonSampledDpEvent" ["sampling_probability"; "event"];
    event_cls "SampledWithReplacementDpEvent" ["source_dataset_size"; "sample_size"; "event"];
    event_cls "SampledWithoutReplacementDpEvent" ["source_dataset_size"; "sample_size"; "event"];
    event_cls "SingleEpochTreeAggregationDpEvent" ["noise_multiplier"; "step_counts"];
    event_cls "RepeatAndSelectDpEvent" ["event"; "mean"; "shape"];
    event_cls "MixtureOfGaussiansDpEvent" ["standard_deviation"; "sensitivities"; "sampling_probs"] ].

(** A class that is found under its own name, whose fields are public, passed to the
    constructor, and not named like the two fields that identify the class. *)
Definition usable (lookup : string -> string -> option cls) (c : cls) : Prop :=
  lookup (cls_module c) (cls_name c) = Some c /\ cls_event c = true /\ NoDup (names c) /\
  forall f init, In (f, init) (cls_fields c) ->
    init = true /\ (forall s, f <> String "_" s) /\ f <> "module_name" /\ f <> "class_name".

Definition all {A} (P : A -> Prop) (l : list A) : Prop := fold_right (fun x => and (P x)) True l.

(** An event, possibly of a user's own class, all of whose attributes are numbers, events, or
    lists, tuples or dictionaries of numbers, strings, events, ...: no attribute itself is a
    string, and neither an attribute nor an element is a named tuple. *)
Fixpoint element_ok (lookup : string -> string -> option cls) (v : pyvalue) : Prop :=
  match v with
  | VObj c vs =>
      usable lookup c /\ List.length vs = List.length (cls_fields c) /\
      all (fun f => match f with
                    | VNum _ => True
                    | VSeq _ l => all (element_ok lookup) l
                    | VMap l => all (fun kv => element_ok lookup (snd kv)) l
                    | VObj _ _ => element_ok lookup f
                    | VStr _ | VNamed _ _ _ => False
                    end) vs
  | VNamed _ _ _ => False
  | _ => True
  end.
Definition convertible (lookup : string -> string -> option cls) (v : pyvalue) : Prop :=
  (exists c vs, v = VObj c vs) /\ element_ok lookup v.

(** No object of an attrs class occurs in the value. *)
Fixpoint plain (v : pyvalue) : Prop :=
  match v with
  | VNum _ | VStr _ => True
  | VSeq _ l => all plain l
  | VMap l => all (fun kv => plain (snd kv)) l
  | VObj _ _ => False
  | VNamed _ _ fs => all (fun kv => plain (snd kv)) fs
  end.
