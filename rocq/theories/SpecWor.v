(** Specification: a computation on a sample of the records, drawn uniformly without
    replacement.  Nothing here refers to the code. *)
From Coq Require Import Permutation.
From Verif Require Import Base SpecDP.

(** All the ways to take [m] of the records. *)
Fixpoint samples {X : Type} (m : nat) (l : list X) : list (list X) :=
  match l with
  | [] => match m with O => [[]] | S _ => [] end
  | x :: l => match m with O => [] | S m' => map (cons x) (samples m' l) end ++ samples m l
  end.
(** The law of the outcome when each of these samples is equally likely and the computation on
    the sample [s] returns [o] with probability [run s o]. *)
Definition on_sample {X O : Type} (m : nat) (run : list X -> O -> R) (data : list X) (o : O) : R :=
  rsum (fun s => run s o) (samples m data) / INR (length (samples m data)).

(** The second list has another record in place of one of the first, whatever the order. *)
Definition replaces {X : Type} (l l' : list X) : Prop :=
  exists x y v, Permutation l (x :: v) /\ Permutation l' (y :: v).

(** A computation on [m] of [n] records, seen on two data sets that differ in one record: what is
    computed depends on the sampled records but not on their order, and on two samples that differ
    in one record it is in the class [C]. *)
Definition sampled_without_replacement (C : exper -> Prop) (n m : nat) (E : exper) : Prop :=
  exists (X O : Type) (os : list O) (run : list X -> O -> R) (data data' : list X),
    length data = n /\ (m <= n)%nat /\ replaces data data' /\
    (forall s, length s = m -> (forall o, In o os -> 0 <= run s o) /\ rsum (run s) os = 1) /\
    (forall s s', Permutation s s' -> forall o, run s o = run s' o) /\
    (forall s s', length s = m -> replaces s s' -> C (mkExper O os (run s) (run s'))) /\
    E = mkExper O os (on_sample m run data) (on_sample m run data').
