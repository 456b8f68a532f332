(** Specification vocabulary for privacy loss distributions: what a pmf object
    means, independently of its sparse or dense representation. *)
From Verif Require Import Base PyDict ModelPmf.

(** Probability that the privacy loss is [k] (in units of the discretization). *)
Definition mass (p : pmf) (k : Z) : R :=
  match pmf_body p with
  | Sparse d => dget0 d k
  | Dense lower l => if (k <? lower)%Z then 0 else nth (Z.to_nat (k - lower)) l 0
  end.

(** A well-formed pmf: positive discretization, non-negative probabilities, and
    (as for every Python dict) no duplicate keys. *)
Definition wf (p : pmf) : Prop :=
  0 < discretization p /\ 0 <= infinity_mass p /\ (forall k, 0 <= mass p k) /\
  match pmf_body p with Sparse d => NoDup (map fst d) | Dense _ _ => True end.

(** [ks] lists every loss of positive probability exactly once. *)
Definition covers (ks : list Z) (p : pmf) : Prop :=
  NoDup ks /\ forall k, mass p k <> 0 -> In k ks.

(** Total probability is one. *)
Definition proper (p : pmf) : Prop :=
  wf p /\ forall ks, covers ks p -> rsum (mass p) ks + infinity_mass p = 1.

(** Two pmfs are the same distribution. *)
Definition same_distribution (p q : pmf) : Prop :=
  (forall k, mass p k = mass q k) /\ infinity_mass p = infinity_mass q /\
  discretization p = discretization q.

(** The privacy curve of a pmf: infinity mass plus the expectation of
    max(0, 1 - e^(eps - loss)). *)
Definition curve_at (p : pmf) (ks : list Z) (eps : R) : R :=
  infinity_mass p +
  rsum (fun k => mass p k * Rmax 0 (1 - exp (eps - IZR k * discretization p))) ks.

(** [tuples xs n]: all ways to draw [n] times from [xs]. *)
Fixpoint tuples {A} (xs : list A) (n : nat) : list (list A) :=
  match n with
  | O => [[]]
  | S n => flat_map (fun x => map (cons x) (tuples xs n)) xs
  end.
Definition rprod {A} (f : A -> R) (l : list A) : R := fold_right (fun a acc => f a * acc) 1 l.
Definition zsum (l : list Z) : Z := fold_right Z.add 0%Z l.

(** Distribution of the sum of [n] independent draws from the weights [w] on
    [xs]: the probability that it satisfies [S]. *)
Definition prob_sum (xs : list Z) (w : Z -> R) (n : nat) (S : Z -> bool) : R :=
  rsum (fun t => if S (zsum t) then rprod w t else 0) (tuples xs n).
