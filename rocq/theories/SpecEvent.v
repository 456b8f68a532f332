(** Specification of what a composite event describes, independent of the builder:
    the sequence of its elementary events.  A SelfComposed event stands for
    [count] copies of its inner event (dp_event.py 288-299), a Composed event for
    the concatenation of its parts, a NoOp for nothing. *)
From Verif Require Import Base TypesEvent.

(** [n] copies of a list, one after the other. *)
Fixpoint copies {A} (n : nat) (l : list A) : list A :=
  match n with O => [] | S n => l ++ copies n l end.

Fixpoint atoms {N} (e : event N) : list (event N) :=
  match e with
  | NoOp => []
  | SelfComposed e c => copies (Z.to_nat c) (atoms e)
  | Composed es => flat_map atoms es
  | _ => [e]
  end.

(** The elementary events of a history of (event, count) pairs. *)
Definition history_atoms {N} (h : list (event N * Z)) : list (event N) :=
  flat_map (fun '(e, n) => copies (Z.to_nat n) (atoms e)) h.

(** A call with these arguments is acceptable: positive count, and positive
    counts along the chain of SelfComposed wrappers around the event. *)
Fixpoint good_counts {N} (e : event N) (n : Z) : Prop :=
  (1 <= n)%Z /\
  match e with
  | SelfComposed e' c => good_counts e' (n * c)
  | _ => True
  end.

(** The same as a decision procedure. *)
Fixpoint good_countsb {N} (e : event N) (n : Z) : bool :=
  (1 <=? n)%Z &&
  match e with
  | SelfComposed e' c => good_countsb e' (n * c)
  | _ => true
  end.

(** What is left of an event when the SelfComposed wrappers are removed. *)
Fixpoint core {N} (e : event N) : event N :=
  match e with SelfComposed e' _ => core e' | _ => e end.

(** Canonical form promised for built events.  A run is an event that is neither a
    NoOp nor a SelfComposed wrapper, with a positive repetition count; it is written
    as the event itself when the count is 1.  A built event is a NoOp, one run, or a
    composition of at least two runs in which neighbours are different events. *)
Definition run_ok (r : event num * Z) : Prop :=
  (1 <= snd r)%Z /\ core (fst r) = fst r /\ fst r <> NoOp.

Definition write_run (r : event num * Z) : event num :=
  if (snd r =? 1)%Z then fst r else SelfComposed (fst r) (snd r).

Fixpoint neighbours_differ (l : list (event num * Z)) : Prop :=
  match l with
  | r1 :: ((r2 :: _) as l') => value (fst r1) <> value (fst r2) /\ neighbours_differ l'
  | _ => True
  end.

Definition canonical (e : event num) : Prop :=
  exists runs, Forall run_ok runs /\ neighbours_differ runs /\
    match runs with
    | [] => e = NoOp
    | [r] => e = write_run r
    | _ => e = Composed (map write_run runs)
    end.

(** A history up to Python's [==] on numbers. *)
Definition by_value (l : list (event num * Z)) : list (event xr * Z) :=
  map (fun r => (value (fst r), snd r)) l.

(** The composition requested by a sequence of builder calls: build() requests
    nothing, a compose call with acceptable arguments its event and count. *)
Definition accepted_call (c : builder_call) : list (event num * Z) :=
  match c with
  | CallCompose (EventObj e) (IntCount n) => if good_countsb e n then [(e, n)] else []
  | _ => []
  end.
Definition accepted (cs : list builder_call) : list (event num * Z) :=
  flat_map accepted_call cs.

Definition not_build (c : builder_call) : bool :=
  match c with CallBuild => false | _ => true end.
