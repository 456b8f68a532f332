(** Python values as the conversion of events to named tuples sees them. *)
From Verif Require Import Base TypesEvent.
From Coq Require Export String Ascii.
Open Scope string_scope.

(** An attrs class: module, name, whether it is a DpEvent, and its fields with their [init]
    flag.  Fields with defaults, validators or converters are not modelled. *)
Record cls := mkCls { cls_module : string; cls_name : string; cls_event : bool; cls_fields : list (string * bool) }.

Inductive seq_type := PyList | PyTuple.
(** Values: numbers, strings, lists and tuples, dictionaries, objects of attrs classes (with
    the values of their fields in the order of the class), and the named tuples made from
    events (module_name, class_name, and the further fields). *)
Inductive pyvalue :=
| VNum (n : num)
| VStr (s : string)
| VSeq (t : seq_type) (l : list pyvalue)
| VMap (l : list (string * pyvalue))
| VObj (c : cls) (vs : list pyvalue)
| VNamed (module_name class_name : string) (fs : list (string * pyvalue)).
