(** Model of python/dp_accounting/dp_accounting/dp_event_builder.py. *)
From Verif Require Import Base TypesEvent.

(** attrs-generated [__eq__] of the DpEvent classes (dp_event.py, [@attr.s]):
    same class and equal attributes; numbers compare by value, lists and scalars
    are different. *)
Definition num_eqb (a b : num) : bool := xeqb (nval a) (nval b).

Fixpoint list_eqb {A} (eq : A -> A -> bool) (l1 l2 : list A) : bool :=
  match l1, l2 with
  | [], [] => true
  | a :: l1, b :: l2 => eq a b && list_eqb eq l1 l2
  | _, _ => false
  end.

Definition steps_eqb (a b : steps) : bool :=
  match a, b with
  | OneTree x, OneTree y => Z.eqb x y
  | Trees l, Trees l' => list_eqb Z.eqb l l'
  | _, _ => false
  end.

Fixpoint event_eqb (e1 e2 : event num) {struct e1} : bool :=
  match e1, e2 with
  | NoOp, NoOp | NonPrivate, NonPrivate | Unsupported, Unsupported => true
  | RandResp p k, RandResp p' k' => num_eqb p p' && Z.eqb k k'
  | Gaussian s, Gaussian s' => num_eqb s s'
  | Laplace s, Laplace s' => num_eqb s s'
  | SelfComposed e c, SelfComposed e' c' => event_eqb e e' && Z.eqb c c'
  | Composed es, Composed es' =>
      (fix go (l1 l2 : list (event num)) : bool :=
         match l1, l2 with
         | [], [] => true
         | a :: l1, b :: l2 => event_eqb a b && go l1 l2
         | _, _ => false
         end) es es'
  | PoissonSampled q e, PoissonSampled q' e' => num_eqb q q' && event_eqb e e'
  | SampledWithReplacement a b e, SampledWithReplacement a' b' e' =>
      Z.eqb a a' && Z.eqb b b' && event_eqb e e'
  | SampledWithoutReplacement a b e, SampledWithoutReplacement a' b' e' =>
      Z.eqb a a' && Z.eqb b b' && event_eqb e e'
  | TreeAggregation s l, TreeAggregation s' l' => num_eqb s s' && steps_eqb l l'
  | RepeatAndSelect e m s, RepeatAndSelect e' m' s' =>
      event_eqb e e' && num_eqb m m' && num_eqb s s'
  | MixtureOfGaussians s a b, MixtureOfGaussians s' a' b' =>
      num_eqb s s' && list_eqb num_eqb a a' && list_eqb num_eqb b b'
  | _, _ => false
  end.

(** State of a [DpEventBuilder] (dp_event_builder.py 28-31): [_event_counts] is a
    list of (event, count) pairs, [_composed_event] the cached result of build. *)
Record builder := mkBuilder {
  event_counts : list (event num * Z);
  composed_event : option (event num)
}.

(** dp_event_builder.py 28-31, [__init__]. *)
Definition new_builder : builder := mkBuilder [] None.

(** dp_event_builder.py 52-58: the last branch of [compose]: merge with the last
    (event, count) pair when the events are equal (keeping the new event object),
    append otherwise. *)
Definition push_count (l : list (event num * Z)) (e : event num) (n : Z)
  : list (event num * Z) :=
  match rev l with
  | [] => [(e, n)]
  | (e', m) :: r =>
      if event_eqb e' e then rev r ++ [(e, (m + n)%Z)] else l ++ [(e, n)]
  end.

(** dp_event_builder.py 33-58, [compose], for an event argument and an int count.
    The recursion of the SelfComposed branch re-checks the count (45-46). *)
Fixpoint builder_compose (b : builder) (e : event num) (count : Z) {struct e}
  : builder * res unit :=
  if (count <? 1)%Z then (b, Err ValueError)              (* 45-46 *)
  else match e with
       | NoOp => (b, Ok tt)                               (* 48-49 *)
       | SelfComposed e' c => builder_compose b e' (count * c)   (* 50-51 *)
       | _ => (mkBuilder (push_count (event_counts b) e count) None, Ok tt) (* 52-58 *)
       end.

(** dp_event_builder.py 40-46: the type checks of [compose], then the above. *)
Definition builder_compose_arg (b : builder) (e : event_arg) (n : count_arg)
  : builder * res unit :=
  match e with
  | NotAnEvent => (b, Err TypeError)
  | EventObj e =>
      match n with
      | NotAnInt => (b, Err TypeError)
      | IntCount n => builder_compose b e n
      end
  end.

(** dp_event_builder.py 63-73: the event computed from [_event_counts]. *)
Definition run_event (r : event num * Z) : event num :=
  let (e, n) := r in if (n =? 1)%Z then e else SelfComposed e n.

Definition composed_of (l : list (event num * Z)) : event num :=
  match map run_event l with
  | [] => NoOp
  | [e] => e
  | es => Composed es
  end.

(** dp_event_builder.py 60-76, [build], with its cache. *)
Definition builder_build (b : builder) : builder * event num :=
  match composed_event b with
  | Some e => (b, e)
  | None => let e := composed_of (event_counts b) in
            (mkBuilder (event_counts b) (Some e), e)
  end.

(** Effect of a client's call on a builder. *)

Definition builder_step (b : builder) (c : builder_call) : builder :=
  match c with
  | CallCompose e n => fst (builder_compose_arg b e n)
  | CallBuild => fst (builder_build b)
  end.

Definition builder_run (cs : list builder_call) : builder :=
  fold_left builder_step cs new_builder.
