(** Properties of the conversion of events to named tuples (C48). *)
From Verif Require Import Base Exn TypesEvent TypesNamed ModelNamed SpecNamed ProofNamed.

(** C48: for every event of dp_event.py, however nested, from_named_tuple undoes
    to_named_tuple; [lookup] finds a class by module and name.  (Different events are
    different objects.)  The named tuple contains no event any more. *)
Theorem C48_events : forall lookup e,
  (forall c, In c event_classes -> lookup (cls_module c) (cls_name c) = Some c) ->
  exists t, to_named_tuple (as_object e) = Ok t /\ from_named_tuple lookup t = Ok (as_object e).
Proof. exact round_trip_events. Qed.
Print Assumptions C48_events.

Theorem C48_plain : forall e t, to_named_tuple (as_object e) = Ok t -> plain t.
Proof. exact event_plain. Qed.
Print Assumptions C48_plain.

Theorem C48_distinct : forall e e', as_object e = as_object e' -> e = e'.
Proof. exact as_object_inj. Qed.
Print Assumptions C48_distinct.

Example C48_events_example : (forall c, In c event_classes -> event_lookup (cls_module c) (cls_name c) = Some c) /\
  to_named_tuple (as_object (SelfComposed (Gaussian (PyInt 1)) 3)) =
    Ok (VNamed "dp_accounting.dp_event" "SelfComposedDpEvent"
      [("event", VNamed "dp_accounting.dp_event" "GaussianDpEvent" [("noise_multiplier", VNum (PyInt 1))]); ("count", VNum (PyInt 3))]).
Proof. exact events_example. Qed.

(** C48: the same for events of user defined classes, whose attributes are numbers, events,
    or lists, tuples and dictionaries. *)
Theorem C48_user_events_partial : forall lookup v, convertible lookup v ->
  exists t, to_named_tuple v = Ok t /\ from_named_tuple lookup t = Ok v.
Proof. exact round_trip_generic. Qed.
Print Assumptions C48_user_events_partial.

Example C48_user_events_example : convertible user_lookup user_event.
Proof. exact user_example. Qed.

(** C48: a class with a private field, a field that the constructor does not take, or a field
    with one of the two names used for the class is refused with ValueError. *)
Theorem C48_refuses : forall c vs, cls_event c = true ->
  (exists f init, In (f, init) (cls_fields c) /\ (init = false \/ (exists s, f = String "_" s) \/ f = "module_name" \/ f = "class_name")) ->
  to_named_tuple (VObj c vs) = Err ValueError.
Proof. exact unusable_raises. Qed.
Print Assumptions C48_refuses.

Example C48_refuses_example : exists c, cls_event c = true /\
  (exists f init, In (f, init) (cls_fields c) /\ (init = false \/ (exists s, f = String "_" s) \/ f = "module_name" \/ f = "class_name")).
Proof. exact raises_example. Qed.

(** C48 fails for events with a string attribute: the string is a sequence, and comes back as
    the printed list of its characters. *)
Theorem C48_string_refuted : ~ (forall lookup c vs, usable lookup c -> List.length vs = List.length (cls_fields c) ->
  (forall v, In v vs -> exists s, v = VStr s) ->
  exists t, to_named_tuple (VObj c vs) = Ok t /\ from_named_tuple lookup t = Ok (VObj c vs)).
Proof. exact text_refuted. Qed.
Print Assumptions C48_string_refuted.
