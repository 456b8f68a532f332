(** Which configurations of the property testers are meaningful. *)
From Verif Require Import Base TypesTesters.

(** A field that is set to a positive number. *)
Definition positive_field (x : option R) : Prop := exists v, x = Some v /\ 0 < v.
(** An (epsilon, delta) guarantee: epsilon positive, delta not negative. *)
Definition valid_approximate (a : approximate_dp) (eps delta : R) : Prop :=
  a_epsilon a = Some eps /\ 0 < eps /\ a_delta a = Some delta /\ 0 <= delta.
(** Training parameters: all positive. *)
Definition valid_learning (c : training_config) : Prop :=
  positive_field (learning_rate c) /\ positive_field (option_map IZR (training_epochs c)) /\
  positive_field (option_map IZR (batch_size c)).
(** Exactly one of the three guarantees is given. *)
Definition exactly_one {A B C} (p : option A) (r : option B) (a : option C) : Prop :=
  (p <> None /\ r = None /\ a = None) \/ (p = None /\ r <> None /\ a = None) \/ (p = None /\ r = None /\ a <> None).
(** The guarantee of the Renyi tester: order and epsilon of a Renyi guarantee, the order above 1
    and equal to the order of the tester, or the epsilon of a pure guarantee. *)
Definition valid_renyi_property (order : R) (p : privacy_property) (eps : R) (renyi : bool) : Prop :=
  match prop_renyi p, prop_pure p with
  | Some r, _ => renyi = true /\ r_epsilon r = Some eps /\ 0 < eps /\ r_alpha r = Some order /\ 1 < order
  | None, Some q => renyi = false /\ p_epsilon q = Some eps /\ 0 < eps
  | None, None => False
  end.
