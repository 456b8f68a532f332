(** Model of dp_auditorium/mechanisms/noisy_max.py ("nm").  Floats are reals; the records are
    integers; the Gumbel noise of scale 1 is an argument. *)
From Verif Require Import Base Exn.
Local Open Scope R_scope.

(** nm 46-47: counts[i] of collections.Counter for the elements 0, ..., num_elements - 1. *)
Definition element_counts (num_elements : nat) (data : list Z) : list R :=
  map (fun i => INR (count_occ Z.eq_dec data (Z.of_nat i))) (seq 0 num_elements).
(** nm 49-51: the scale 2 / epsilon; numpy's Generator.gumbel raises for a negative scale. *)
Definition gumbel_scale (epsilon : R) : res R :=
  if Reqb epsilon 0 then Err ZeroDivisionError
  else if Rltb (2 / epsilon) 0 then Err ValueError else Ok (2 / epsilon).
(** np.argmax of one row: the first position of the largest value; raises for no value. *)
Fixpoint argmax_from (best : R) (at_best next : nat) (l : list R) : nat :=
  match l with
  | [] => at_best
  | x :: l => if Rltb best x then argmax_from x next (S next) l else argmax_from best at_best (S next) l
  end.
Definition argmax (l : list R) : res nat :=
  match l with [] => Err ValueError | x :: l => Ok (argmax_from x 0 1 l) end.
(** nm 45-54, [__call__]: for each sample, the element with the largest noisy count.  numpy
    raises for num_elements = 0 also when there are no samples, where this returns []. *)
Fixpoint map_res {A B} (f : A -> res B) (l : list A) : res (list B) :=
  match l with [] => Ok [] | x :: l => let? y := f x in let? r := map_res f l in Ok (y :: r) end.
Definition noisy_max (noise : nat -> nat -> R) (epsilon : R) (num_elements : nat) (data : list Z) (num_samples : nat) : res (list nat) :=
  let counts := element_counts num_elements data in
  let? s := gumbel_scale epsilon in
  map_res (fun k => argmax (map (fun i => nth i counts 0 + s * noise k i) (seq 0 num_elements))) (seq 0 num_samples).
