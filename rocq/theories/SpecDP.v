(** Specification: differential privacy of a randomised computation observed on
    two neighbouring inputs.  Nothing here refers to the code. *)
From Verif Require Import Base.

(** A randomised computation with finitely many outcomes, run on two
    neighbouring inputs: [prP a] ([prQ a]) is the probability of outcome [a] on
    the first (second) input. *)
Record exper := mkExper {
  outcome : Type;
  outs : list outcome;
  prP : outcome -> R;
  prQ : outcome -> R }.

Definition valid (E : exper) : Prop :=
  (forall a, In a (outs E) -> 0 <= prP E a /\ 0 <= prQ E a) /\
  rsum (prP E) (outs E) = 1 /\ rsum (prQ E) (outs E) = 1.

(** Probability of an event (a set of outcomes). *)
Definition ProbP (E : exper) (S : outcome E -> bool) : R := rsum (prP E) (filter S (outs E)).
Definition ProbQ (E : exper) (S : outcome E -> bool) : R := rsum (prQ E) (filter S (outs E)).

(** (eps, delta)-indistinguishability in one direction: for all events. *)
Definition dp (E : exper) (eps delta : R) : Prop :=
  forall S : outcome E -> bool, ProbP E S <= exp eps * ProbQ E S + delta.

(** Exchange the two inputs. *)
Definition swap (E : exper) : exper :=
  {| outcome := outcome E; outs := outs E; prP := prQ E; prQ := prP E |}.

(** (eps, delta)-differential privacy of the pair of inputs: both directions. *)
Definition dp_both (E : exper) (eps delta : R) : Prop :=
  dp E eps delta /\ dp (swap E) eps delta.

(** The hockey-stick divergence: the smallest such delta. *)
Definition hockey_stick (E : exper) (eps : R) : R :=
  rsum (fun a => pos (prP E a - exp eps * prQ E a)) (outs E).

(** Adaptive sequential composition: run [E1], then a computation chosen after
    seeing its outcome; the outcome is the whole transcript. *)
Definition seq_exper (E1 : exper) (E2 : outcome E1 -> exper) : exper :=
  {| outcome := { a : outcome E1 & outcome (E2 a) };
     outs := flat_map (fun a => map (existT _ a) (outs (E2 a))) (outs E1);
     prP := fun ab => prP E1 (projT1 ab) * prP (E2 (projT1 ab)) (projT2 ab);
     prQ := fun ab => prQ E1 (projT1 ab) * prQ (E2 (projT1 ab)) (projT2 ab) |}.

(** The computation that does nothing. *)
Definition silent : exper :=
  {| outcome := unit; outs := [tt]; prP := fun _ => 1; prQ := fun _ => 1 |}.

(** [interaction Cs E]: [E] is the transcript of running one computation from
    each class of [Cs], in this order, each chosen adaptively by an arbitrary
    analyst who sees the transcript so far. *)
Inductive interaction : list (exper -> Prop) -> exper -> Prop :=
| inter_nil : interaction [] silent
| inter_snoc : forall (Cs : list (exper -> Prop)) E (C : exper -> Prop) E',
    interaction Cs E ->
    (forall a, In a (outs E) -> C (E' a)) ->
    interaction (Cs ++ [C]) (seq_exper E E').

(** A privacy profile [d] bounds a computation when, at every eps, no event
    exceeds it. *)
Definition profile_bounds (d : R -> R) (E : exper) : Prop :=
  forall eps, dp E eps (d eps).
