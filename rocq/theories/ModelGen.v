(** Model of dp_auditorium/generators: vizier_dataset_generator.py ("vizier"),
    classification_dataset_generator.py ("class"), pipeline_dp_vizier_dataset_generator.py
    ("pipeline"), constant_dataset_generator.py ("constant"), and of the wrapper
    mechanisms/pipeline_dp/aggregation.py ("aggr").  Vizier is a service with any state and
    behaviour; numbers are reals. *)
From Coq Require Import String DecimalString.
From Verif Require Import Base Exn XReal TypesGen.

(** f'{i}' and int(s). *)
Definition str_of_nat (i : nat) : string := NilEmpty.string_of_uint (Nat.to_uint i).
Definition int_of_str (s : string) : res nat :=
  match NilEmpty.uint_of_string s with Some u => Ok (Nat.of_uint u) | None => Err ValueError end.
(** s.split(sep, 2)[1]: what is between the first and the second separator. *)
Definition split_second (sep s : string) : res string :=
  match String.index 0 sep s with
  | None => Err IndexError
  | Some k =>
      let rest := substring (k + String.length sep) (String.length s) s in
      match String.index 0 sep rest with None => Ok rest | Some j => Ok (substring 0 j rest) end
  end.
Fixpoint map_res {A B} (f : A -> res B) (l : list A) : res (list B) :=
  match l with
  | [] => Ok []
  | a :: l => let? b := f a in let? bs := map_res f l in Ok (b :: bs)
  end.
(** Names [prefix ++ i] for the indices, and the inverse dictionary. *)
Definition names (prefix : string) (idx : list nat) : list string := map (fun i => append prefix (str_of_nat i)) idx.
Definition name_table (prefix : string) (idx : list nat) : res (list (string * nat)) :=
  map_res (fun name => let? d := split_second prefix name in let? i := int_of_str d in Ok (name, i)) (names prefix idx).
Fixpoint lookup (k : string) (d : list (string * nat)) : res nat :=
  match d with
  | [] => Err KeyError
  | (k', i) :: d => if String.eqb k k' then Ok i else lookup k d
  end.

(** Python's int(x) of a float: rounds towards zero. *)
Definition py_int (x : R) : Z := if Rltb x 0 then Rceil x else Rfloor x.
(** vizier 46-54, [_get_params_name_mapping]; the keys of the first dictionary are 0, 1, ... *)
Definition params_name_mapping (n : nat) : res (list string * list (string * nat)) :=
  let? t := name_table "x" (seq 0 n) in Ok (names "x" (seq 0 n), t).
(** vizier 57-91, [_add_params_to_vizier_problem]. *)
Definition add_params (idx_to_str : list string) (c : vizier_config) : res (list param) :=
  match vc_type c with
  | DATA_TYPE_FLOAT => Ok (map (fun s => FloatParam s (vc_min c) (vc_max c)) idx_to_str)
  | DATA_TYPE_INT32 => Ok (map (fun s => IntParam s (py_int (vc_min c)) (py_int (vc_max c))) idx_to_str)
  | DATA_TYPE_UNSPECIFIED => Err NotImplementedError
  end.

Fixpoint set_nth {A} (i : nat) (x : A) (l : list A) : list A :=
  match l, i with
  | [], _ => []
  | _ :: l, O => x :: l
  | a :: l, S i => a :: set_nth i x l
  end.
(** vizier 176-197, the loop of [_extract_params_from_trial]; an index out of range raises. *)
Fixpoint fill (table : list (string * nat)) (ps : list (string * R)) (data : list R) : res (list R) :=
  match ps with
  | [] => Ok data
  | (name, v) :: ps =>
      let? i := lookup name table in
      if (i <? List.length data)%nat then fill table ps (set_nth i v data) else Err IndexError
  end.
Definition extract_params (g : gen_state) : res (list R) :=
  match last_trial g with
  | None => Err ValueError
  | Some t => fill (str_to_idx g) (trial_parameters t) (repeat 0 (num_params g))
  end.

Section Service.
  (** The client of a study: [study] creates or loads it, [suggest] returns a list of suggestions,
      [complete] stores a measurement.  Every call may raise and changes the state [V]. *)
  Context {V : Type} (study : list param -> res V) (suggest : V -> V * res (list (option trial)))
          (complete : V -> trial -> xr -> V * res unit).

  (** vizier 108-147, the constructor. *)
  Definition new_vizier (c : vizier_config) : res (gen_state * V) :=
    let? (idx_to_str, table) := params_name_mapping (num_vizier_parameters c) in
    let? ps := add_params idx_to_str c in
    let? v := study ps in
    Ok (mkGen table (num_vizier_parameters c) false None, v).
  (** class 25-84 and 98-141, the constructor. *)
  Definition class_params (c : class_config) : res (list param * list (string * nat)) :=
    let nf := (sample_dim c * num_samples_cc c)%nat in
    let? tf := name_table "float" (seq 0 nf) in
    let? ti := name_table "int" (seq nf (num_samples_cc c)) in
    Ok (map (fun s => FloatParam s (cc_min c) (cc_max c)) (names "float" (seq 0 nf))
        ++ map (fun s => IntParam s 0 (Z.of_nat (num_classes c))) (names "int" (seq nf (num_samples_cc c))), tf ++ ti).
  Definition new_class (c : class_config) : res (gen_state * V) :=
    let? (ps, table) := class_params c in
    let? v := study ps in
    Ok (mkGen table (sample_dim c * num_samples_cc c + num_samples_cc c) false None, v).

  (** vizier 28-43, [_get_trial]: suggestions[-1]. *)
  Definition get_trial (v : V) : V * res (option trial) :=
    match suggest v with
    | (v, Err e) => (v, Err e)
    | (v, Ok l) => (v, match rev l with [] => Err IndexError | t :: _ => Ok t end)
    end.
  (** vizier 149-155, [_load_trial]. *)
  Definition load_trial (s : gen_state * V) : (gen_state * V) * res unit :=
    let (g, v) := s in
    let '((g, v), r) :=
      if trial_loaded g then ((g, v), Ok tt)
      else match get_trial v with
           | (v, Err e) => ((g, v), Err e)
           | (v, Ok t) => ((mkGen (str_to_idx g) (num_params g) (match t with Some _ => true | None => false end) t, v), Ok tt)
           end in
    match r with
    | Err e => ((g, v), Err e)
    | Ok _ => ((g, v), match last_trial g with None => Err ValueError | Some _ => Ok tt end)
    end.
  (** vizier 157-174, [_complete_trial]. *)
  Definition complete_trial (r : xr) (s : gen_state * V) : (gen_state * V) * res unit :=
    let (g, v) := s in
    match last_trial g with
    | None => ((g, v), Ok tt)
    | Some t =>
        match complete v t r with
        | (v, Err e) => ((g, v), Err e)
        | (v, Ok _) => ((mkGen (str_to_idx g) (num_params g) false (Some t), v), Ok tt)
        end
    end.
  (** vizier 204-232, [__call__]; None and zero are false in "if last_trial_result". *)
  Definition truthy (r : option xr) : option xr :=
    match r with Some x => if xeqb x (Fin 0) then None else Some x | None => None end.
  Definition gen_call {D} (datasets : list R -> res (D * D)) (r : option xr) (s : gen_state * V) : (gen_state * V) * res (D * D) :=
    let (s, a) := match truthy r with Some x => complete_trial x s | None => (s, Ok tt) end in
    match a with
    | Err e => (s, Err e)
    | Ok _ =>
        let (s, b) := load_trial s in
        match b with
        | Err e => (s, Err e)
        | Ok _ => (s, let? p := extract_params (fst s) in datasets p)
        end
    end.
End Service.

(** vizier 235-246, VizierScalarDataAddRemoveGenerator. *)
Definition scalar_datasets (p : list R) : res (list R * list R) := Ok (removelast p, p).
(** numpy's reshape of a vector to [n] rows. *)
Definition reshape {A} (n m : nat) (l : list A) : res (list (list A)) :=
  if (List.length l =? n * m)%nat then Ok (map (fun i => firstn m (skipn (i * m) l)) (seq 0 n)) else Err ValueError.
(** pipeline 52-56, [_generate_sparse_matrix_from_dense]: (row, column, value). *)
Definition sparse (rows : list (list R)) : list (nat * nat * R) :=
  flat_map (fun ir => map (fun jx => (fst ir, fst jx, snd jx)) (combine (seq 0 (List.length (snd ir))) (snd ir)))
    (combine (seq 0 (List.length rows)) rows).
(** pipeline 58-84. *)
Definition pipeline_datasets (ids partitions : nat) (p : list R) : res (list (nat * nat * R) * list (nat * nat * R)) :=
  let? all_data := reshape ids partitions p in
  Ok (sparse (removelast all_data), sparse all_data).
(** pipeline 37-50, the constructor overwrites the number of parameters. *)
Definition pipeline_config (ids partitions : nat) (c : vizier_config) : vizier_config :=
  mkVizierConfig (ids * partitions) (vc_type c) (vc_min c) (vc_max c).
(** class 143-166. *)
Definition class_datasets (c : class_config) (p : list R) : res ((list (list R) * list R) * (list (list R) * list R)) :=
  let nf := (sample_dim c * num_samples_cc c)%nat in
  let? features := reshape (num_samples_cc c) (sample_dim c) (firstn nf p) in
  let labels := skipn nf p in
  Ok ((features, labels), (removelast features, removelast labels)).
(** constant 31-38. *)
Definition constant_call {D} (pair : D * D) (_ : option xr) : D * D := pair.

(** aggr 54-58, the extractors. *)
Definition partition_extractor (x : nat * nat * R) : nat := fst (fst x).
Definition privacy_id_extractor (x : nat * nat * R) : nat := snd (fst x).
Definition value_extractor (x : nat * nat * R) : R := snd x.
(** aggr 41-86: [engine] is PipelineDP's engine with the tested budget, the configuration and the
    public partitions; it returns rows (partition, metrics) and changes the state of the world. *)
Section Aggregation.
  Context {W : Type} (engine : R -> R -> list (nat * nat * R) -> W -> res (list (nat * list R) * W)).
  Definition compute_aggregations (epsilon delta : R) (data : list (nat * nat * R)) (w : W) : res (list R * W) :=
    let? (result, w) := engine epsilon delta data w in
    Ok (concat (map snd result), w).
  Fixpoint aggregation_call (epsilon delta : R) (data : list (nat * nat * R)) (n : nat) (w : W) : res (list (list R) * W) :=
    match n with
    | O => Ok ([], w)
    | S n =>
        let? (x, w) := compute_aggregations epsilon delta data w in
        let? (xs, w) := aggregation_call epsilon delta data n w in
        Ok (x :: xs, w)
    end.
End Aggregation.
