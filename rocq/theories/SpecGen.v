(** Dataset generators that ask a service for datasets.  Nothing here refers to the code except the
    data types. *)
From Coq Require Import String DecimalString Permutation.
From Verif Require Import Base Exn XReal TypesGen.

Local Open Scope list_scope.
Local Open Scope R_scope.

(** What a service was asked to do, if it did not raise. *)
Inductive service_event := Suggested (t : trial) | Completed (t : trial) (result : xr).
(** A result to be reported: given, and not zero. *)
Definition reported (r : option xr) (x : xr) : Prop := r = Some x /\ x <> Fin 0.
Definition silent (r : option xr) : Prop := r = None \/ r = Some (Fin 0).
(** The protocol.  [calls] lists for every call of the generator the result it was given and the
    trial its datasets are made of; [p] is the trial before.  A result completes the trial before and
    asks for the next; without a result, the trial before is used again. *)
Inductive protocol : option trial -> list (option xr * trial) -> list service_event -> Prop :=
| protocol_nil p : protocol p [] []
| protocol_first r t calls log : protocol (Some t) calls log -> protocol None ((r, t) :: calls) (Suggested t :: log)
| protocol_next t0 r x t calls log : reported r x -> protocol (Some t) calls log ->
    protocol (Some t0) ((r, t) :: calls) (Completed t0 x :: Suggested t :: log)
| protocol_same t0 r calls log : silent r -> protocol (Some t0) calls log -> protocol (Some t0) ((r, t0) :: calls) log.

(** A value for a parameter of the search space. *)
Definition in_space (p : param) (name : string) (v : R) : Prop :=
  match p with
  | FloatParam n lo hi => n = name /\ lo <= v <= hi
  | IntParam n lo hi => n = name /\ exists z, v = IZR z /\ (lo <= z <= hi)%Z
  end.
(** A trial with exactly one value for every parameter. *)
Definition in_search_space (ps : list param) (t : trial) : Prop :=
  exists l, Permutation (trial_parameters t) l /\ Forall2 (fun p nv => in_space p (fst nv) (snd nv)) ps l.

(** The records of other users are the same. *)
Definition only_differ_in {A} (user : A -> nat) (u : nat) (d1 d2 : list A) : Prop :=
  forall x, user x <> u -> (In x d1 <-> In x d2).

(** A service that keeps a log. *)
Section Logged.
  Context {S : Type} (suggest : S -> S * res (list (option trial))) (complete : S -> trial -> xr -> S * res unit).
  Definition log_suggest (v : S * list service_event) : (S * list service_event) * res (list (option trial)) :=
    match suggest (fst v) with
    | (s, Ok l) => ((s, snd v ++ match last l None with Some t => [Suggested t] | None => [] end), Ok l)
    | (s, Err e) => ((s, snd v), Err e)
    end.
  Definition log_complete (v : S * list service_event) (t : trial) (x : xr) : (S * list service_event) * res unit :=
    match complete (fst v) t x with
    | (s, Ok u) => ((s, snd v ++ [Completed t x]), Ok u)
    | (s, Err e) => ((s, snd v), Err e)
    end.
End Logged.
(** Calls that all returned: the arguments and what was returned. *)
Inductive returned {S A D : Type} (call : A -> S -> S * res D) : S -> list (A * D) -> S -> Prop :=
| returned_nil s : returned call s [] s
| returned_cons s a d s1 h s2 : call a s = (s1, Ok d) -> returned call s1 h s2 -> returned call s ((a, d) :: h) s2.

(** The search spaces: parameters x0, x1, ... with the bounds of the configuration, or features
    float0, float1, ... followed by labels. *)
Definition decimal (i : nat) : string := DecimalString.NilEmpty.string_of_uint (Nat.to_uint i).
Definition toward_zero (x : R) (z : Z) : Prop :=
  (0 <= x -> IZR z <= x < IZR z + 1) /\ (x <= 0 -> IZR z - 1 < x <= IZR z).
Definition vizier_space (c : vizier_config) (ps : list param) : Prop :=
  match vc_type c with
  | DATA_TYPE_FLOAT => ps = map (fun i => FloatParam ("x" ++ decimal i)%string (vc_min c) (vc_max c)) (seq 0 (num_vizier_parameters c))
  | DATA_TYPE_INT32 => exists lo hi, toward_zero (vc_min c) lo /\ toward_zero (vc_max c) hi
      /\ ps = map (fun i => IntParam ("x" ++ decimal i)%string lo hi) (seq 0 (num_vizier_parameters c))
  | DATA_TYPE_UNSPECIFIED => False
  end.
Definition class_space (c : class_config) : list param :=
  let features := (sample_dim c * num_samples_cc c)%nat in
  map (fun i => FloatParam ("float" ++ decimal i)%string (cc_min c) (cc_max c)) (seq 0 features)
  ++ map (fun i => IntParam ("int" ++ decimal i)%string 0 (Z.of_nat (num_classes c))) (seq features (num_samples_cc c)).
(** The values of a trial, in the order of the parameters of the space. *)
Definition values (ps : list param) (t : trial) (xs : list R) : Prop :=
  exists l, Permutation (trial_parameters t) l /\ Forall2 (fun p nv => in_space p (fst nv) (snd nv)) ps l /\ xs = map snd l.
Definition log_study {S} (study : list param -> res S) (ps : list param) : res (S * list service_event) :=
  let? s := study ps in Ok (s, []).

(** The datasets.  Scalars: one value for every parameter, and the other dataset lacks the last. *)
Definition scalars (n : nat) (xs : list R) : list R := map (fun i => nth i xs 0) (seq 0 n).
(** Records (row, column, value) of a matrix with [m] columns given as one list. *)
Definition entries (rows m : nat) (xs : list R) : list (nat * nat * R) :=
  map (fun k => ((k / m)%nat, (k mod m)%nat, nth k xs 0)) (seq 0 (rows * m)).
(** The first [k] labelled examples of [n] examples of dimension [d]: all features come first. *)
Definition examples (n d k : nat) (xs : list R) : list (list R) * list R :=
  (map (fun i => map (fun j => nth (i * d + j) xs 0) (seq 0 d)) (seq 0 k), map (fun i => nth (d * n + i) xs 0) (seq 0 k)).
(** Results of repeated runs. *)
Inductive repeated {W A : Type} (run : W -> res (A * W)) : W -> list A -> W -> Prop :=
| repeated_nil w : repeated run w [] w
| repeated_cons w a w1 l w2 : run w = Ok (a, w1) -> repeated run w1 l w2 -> repeated run w (a :: l) w2.
(** A service that always answers with a trial of the space. *)
Definition answers {S} (suggest : S -> S * res (list (option trial))) (complete : S -> trial -> xr -> S * res unit) (ps : list param) : Prop :=
  (forall s, exists s1 l t, suggest s = (s1, Ok l) /\ last l None = Some t /\ in_search_space ps t) /\
  (forall s t x, exists s1, complete s t x = (s1, Ok tt)).
