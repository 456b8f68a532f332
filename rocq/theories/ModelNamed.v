(** Model of the conversion of events to and from named tuples,
    python/dp_accounting/dp_accounting/dp_event.py 87-211 ([ev] in comments). *)
From Verif Require Import Base Exn TypesEvent TypesNamed.

(** [f(x) for x in l], stopping at the first exception *)
Section Rmap.
  Context {A B : Type} (f : A -> res B).
  Fixpoint rmap (l : list A) : res (list B) :=
    match l with [] => Ok [] | x :: l => let? y := f x in let? ys := rmap l in Ok (y :: ys) end.
End Rmap.

(** [str(list(s))] of a string: str is a Sequence, and its type applied to the list of its
    characters is the printed list.  (Escapes of quotes and of non-printable characters are
    not modelled.) *)
Definition str_of_list (s : string) : string :=
  "[" ++ concat ", " (map (fun c => "'" ++ String c "" ++ "'") (list_ascii_of_string s)) ++ "]".

(** ev 186-211, _check_attrs_cls_for_known_errors *)
Definition private_name (s : string) : bool := match s with String c _ => Ascii.eqb c "_" | "" => false end.
Definition known_error (c : cls) : bool :=
  existsb (fun f => private_name (fst f) || negb (snd f)) (cls_fields c).
(** ev 106-109: NamedTuple refuses a repeated field name. *)
Definition reserved (s : string) : bool := String.eqb s "module_name" || String.eqb s "class_name".
Definition names (c : cls) : list string := map fst (cls_fields c).

(** ev 111-114, _to_named_tuple; for an event, ev 87-128, to_named_tuple itself.  attrs
    objects that are not events have no to_named_tuple; a named tuple as the value of a field
    cannot be rebuilt from one list (TypeError). *)
Fixpoint to_named_tuple (v : pyvalue) : res pyvalue :=
  match v with
  | VObj c vs =>
      if negb (cls_event c) then Err AttributeError else
      if known_error c then Err ValueError else                             (* 104 *)
      if existsb reserved (names c) then Err ValueError else                (* 106-109 *)
      let? ws := rmap (fun f =>                                             (* 116-126 *)
        match f with
        | VObj _ _ => to_named_tuple f
        | VMap l => let? l := rmap (fun kv => let? w := to_named_tuple (snd kv) in Ok (fst kv, w)) l in Ok (VMap l)
        | VSeq t l => let? l := rmap to_named_tuple l in Ok (VSeq t l)
        | VStr s => Ok (VStr (str_of_list s))
        | VNamed _ _ _ => Err TypeError
        | VNum _ => Ok f
        end) vs in
      Ok (VNamed (cls_module c) (cls_name c) (combine (names c) ws))
  | _ => Ok v
  end.

(** [d[k]] *)
Fixpoint assoc (k : string) (l : list (string * pyvalue)) : option pyvalue :=
  match l with [] => None | (k', v) :: l => if String.eqb k' k then Some v else assoc k l end.
Fixpoint fetch (ks : list string) (l : list (string * pyvalue)) : res (list pyvalue) :=
  match ks with
  | [] => Ok []
  | k :: ks => match assoc k l with
               | Some v => let? vs := fetch ks l in Ok (v :: vs)
               | None => Err TypeError
               end
  end.
Definition known_name (ks : list string) (kv : string * pyvalue) : bool := existsb (String.eqb (fst kv)) ks.
(** ev 178-183: subcls with keyword arguments, every one of its fields exactly once; a class with known errors is
    taken to raise. *)
Definition construct (c : cls) (kvs : list (string * pyvalue)) : res pyvalue :=
  if known_error c then Err ValueError else
  if negb (forallb (known_name (names c)) kvs) then Err TypeError else
  let? vs := fetch (names c) kvs in Ok (VObj c vs).

Section From.
  (** getattr(importlib.import_module(module_name), class_name), if it succeeds *)
  Context (lookup : string -> string -> option cls).
  (** ev 149-152, _from_named_tuple; for a named tuple, ev 130-183, from_named_tuple.  The
      fields are visited in the order of a Python set; that order only decides which exception
      is raised if several fields raise one.  Names given as bytes are not modelled. *)
  Fixpoint from_named_tuple (v : pyvalue) : res pyvalue :=
    match v with
    | VNamed m n fs =>
        let? kvs := rmap (fun kf => let? w :=                                (* 155-168 *)
          match snd kf with
          | VNamed _ _ _ => from_named_tuple (snd kf)
          | VMap l => let? l := rmap (fun kv => let? w := from_named_tuple (snd kv) in Ok (fst kv, w)) l in Ok (VMap l)
          | VSeq t l => let? l := rmap from_named_tuple l in Ok (VSeq t l)
          | VStr s => Ok (VStr (str_of_list s))
          | f => Ok f
          end in Ok (fst kf, w)) fs in
        match lookup m n with                                                (* 170-177 *)
        | None => Err AttributeError
        | Some c => construct c kvs                                          (* 179-183 *)
        end
    | _ => Ok v
    end.
End From.

(** ev 214-412: the classes of the events, and an event as an object.  The attributes of the
    classes that take no arguments are none. *)
Definition event_cls (name : string) (fields : list string) : cls :=
  mkCls "dp_accounting.dp_event" name true (map (fun f => (f, true)) fields).
Definition int_value (z : Z) : pyvalue := VNum (PyInt z).
Fixpoint as_object (e : event num) : pyvalue :=
  match e with
  | NoOp => VObj (event_cls "NoOpDpEvent" []) []
  | NonPrivate => VObj (event_cls "NonPrivateDpEvent" []) []
  | Unsupported => VObj (event_cls "UnsupportedDpEvent" []) []
  | RandResp p k => VObj (event_cls "RandomizedResponseDpEvent" ["noise_parameter"; "num_buckets"]) [VNum p; int_value k]
  | Gaussian s => VObj (event_cls "GaussianDpEvent" ["noise_multiplier"]) [VNum s]
  | Laplace s => VObj (event_cls "LaplaceDpEvent" ["noise_multiplier"]) [VNum s]
  | SelfComposed e n => VObj (event_cls "SelfComposedDpEvent" ["event"; "count"]) [as_object e; int_value n]
  | Composed es => VObj (event_cls "ComposedDpEvent" ["events"]) [VSeq PyList (map as_object es)]
  | PoissonSampled q e => VObj (event_cls "PoissonSampledDpEvent" ["sampling_probability"; "event"]) [VNum q; as_object e]
  | SampledWithReplacement a b e =>
      VObj (event_cls "SampledWithReplacementDpEvent" ["source_dataset_size"; "sample_size"; "event"]) [int_value a; int_value b; as_object e]
  | SampledWithoutReplacement a b e =>
      VObj (event_cls "SampledWithoutReplacementDpEvent" ["source_dataset_size"; "sample_size"; "event"]) [int_value a; int_value b; as_object e]
  | TreeAggregation s c =>
      VObj (event_cls "SingleEpochTreeAggregationDpEvent" ["noise_multiplier"; "step_counts"])
        [VNum s; match c with OneTree n => int_value n | Trees l => VSeq PyList (map int_value l) end]
  | RepeatAndSelect e m s => VObj (event_cls "RepeatAndSelectDpEvent" ["event"; "mean"; "shape"]) [as_object e; VNum m; VNum s]
  | MixtureOfGaussians s c p =>
      VObj (event_cls "MixtureOfGaussiansDpEvent" ["standard_deviation"; "sensitivities"; "sampling_probs"])
        [VNum s; VSeq PyList (map VNum c); VSeq PyList (map VNum p)]
  end.
