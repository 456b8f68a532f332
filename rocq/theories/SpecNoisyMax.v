(** The exponential mechanism over counts. *)
From Verif Require Import Base SpecDP SpecRun.
Local Open Scope R_scope.

(** The number of records that choose [i]. *)
Definition votes (data : list Z) (i : nat) : R := rsum (fun r => if (r =? Z.of_nat i)%Z then 1 else 0) data.

(** The Gumbel distribution with scale [b] and its density. *)
Definition gumbel_law (b x : R) : R := exp (- exp (- x / b)).
Definition gumbel_density (b x : R) : R := exp (- x / b) * exp (- exp (- x / b)) / b.
Fixpoint rprod {A} (f : A -> R) (l : list A) : R :=
  match l with [] => 1 | x :: l => f x * rprod f l end.
(** [p i] is the probability that element [i] has the largest of [n] noisy scores, with
    independent Gumbel noise: it has the value x and the others are below. *)
Definition winner_law (b : R) (n : nat) (score : nat -> R) (p : nat -> R) : Prop :=
  forall i, (i < n)%nat ->
    integral_is (fun x => gumbel_density b (x - score i)
      * rprod (fun j => gumbel_law b (x - score j)) (filter (fun j => negb (j =? i)%nat) (seq 0 n))) (p i).
(** The exponential mechanism with the utility [score]: the probability of an element is
    proportional to e^(epsilon score / 2). *)
Definition exponential_mechanism (epsilon : R) (n : nat) (score : nat -> R) (i : nat) : R :=
  exp (epsilon * score i / 2) / rsum (fun j => exp (epsilon * score j / 2)) (seq 0 n).

Definition record_replaced (d d' : list Z) : Prop := exists l x y r, d = l ++ x :: r /\ d' = l ++ y :: r.
Definition record_added (d d' : list Z) : Prop := exists l x r, d = l ++ r /\ d' = l ++ x :: r.
