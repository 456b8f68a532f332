(** Specification: repeating a computation a random number of times and releasing only the
    best run.  Nothing here refers to the code. *)
From Verif Require Import Base XReal SpecDP.

(** All sequences of [k] runs, and the probability of a sequence of independent runs. *)
Fixpoint run_lists {A} (os : list A) (k : nat) : list (list A) :=
  match k with
  | O => [[]]
  | S k => flat_map (fun o => map (cons o) (run_lists os k)) os
  end.
Definition run_prob {A} (pr : A -> R) (runs : list A) : R := fold_right (fun o p => pr o * p) 1 runs.

(** What is released: the best of the runs, or nothing if there was none.  The outcomes are
    ranked, the larger the better. *)
Definition is_best {A} (rank : A -> nat) (y : A) (runs : list A) : bool :=
  (existsb (fun o => (rank o =? rank y)%nat) runs && forallb (fun o => (rank o <=? rank y)%nat) runs)%bool.
Definition released {A} (rank : A -> nat) (out : option A) (runs : list A) : bool :=
  match out with
  | None => match runs with [] => true | _ => false end
  | Some y => is_best rank y runs
  end.
(** Probability of releasing [out] after [k] runs. *)
Definition best_prob {A} (os : list A) (rank : A -> nat) (pr : A -> R) (k : nat) (out : option A) : R :=
  rsum (run_prob pr) (filter (released rank out) (run_lists os k)).

(** [A] runs [E] a random number of times, [k] times with probability [pk k], and releases the
    best run; no two outcomes have the same rank. *)
Definition selects (pk : nat -> R) (E A : exper) : Prop :=
  exists (rank : outcome E -> nat) (sP sQ : option (outcome E) -> R),
    NoDup (map rank (outs E)) /\
    (forall o, In o (None :: map Some (outs E)) ->
       infinite_sum (fun k => pk k * best_prob (outs E) rank (prP E) k o) (sP o) /\
       infinite_sum (fun k => pk k * best_prob (outs E) rank (prQ E) k o) (sQ o)) /\
    A = {| outcome := option (outcome E); outs := None :: map Some (outs E); prP := sP; prQ := sQ |}.

(** The Poisson distribution. *)
Definition poisson_runs (mu : R) (k : nat) : R := exp (- mu) * mu ^ k / INR (fact k).
(** The truncated negative binomial distribution with shape [s] and success probability [g]
    (Definition 1 of arXiv 2110.03620): the number of runs is at least one.  Shape 0 is the
    logarithmic distribution. *)
Fixpoint rising (s : R) (k : nat) : R :=
  match k with O => 1 | S k => rising s k * ((INR k + s) / (INR k + 1)) end.
Definition tnb_runs (s g : R) (k : nat) : R :=
  if Reqb g 1 then (if (k =? 1)%nat then 1 else 0)
  else if (k =? 0)%nat then 0
  else if Reqb s 0 then (1 - g) ^ k / (INR k * ln (1 / g))
  else (1 - g) ^ k / (Rpower g (- s) - 1) * rising s k.

(** The distribution of the number of runs that shape and mean describe.  The negative binomial
    ones are given by a success probability: their mean [m] is to be the given one, less a
    relative 6e-90 when it is neither 1 nor that of a geometric distribution. *)
Definition runs_law (shape : xr) (mean : R) (pk : nat -> R) : Prop :=
  match shape with
  | PInf => forall k, pk k = poisson_runs mean k
  | Fin s => exists g m, 0 < g <= 1 /\ (forall k, pk k = tnb_runs s g k) /\
      infinite_sum (fun k => INR k * pk k) m /\ m <= mean /\
      (m = 1 \/ s = 1 \/ m * (1 + 6 / 10 ^ 90) <= mean)
  | _ => False
  end.
