(** Specification vocabulary for the constructors. *)
From Verif Require Import Base SpecDP TypesRelation ModelMake.

(** A distribution given by log probabilities: the probability of an outcome. *)
Definition prob_of {O} (eqb : O -> O -> bool) (d : odict O) (o : O) : R :=
  rsum (fun ox => if eqb (fst ox) o then lexp (snd ox) else 0) d.

(** A Python dict of log probabilities that is a probability distribution. *)
Definition distribution {O} (d : odict O) : Prop :=
  NoDup (map fst d) /\ rsum (fun ox => lexp (snd ox)) d = 1.

(** The pair of distributions as a randomised computation on two inputs: the
    outcomes are those of either. *)
Definition two_exper {O} (eqb : O -> O -> bool) (upper lower : odict O) : exper :=
  {| outcome := O;
     outs := map fst upper ++
             filter (fun o => negb (existsb (fun o' => eqb o' o) (map fst upper))) (map fst lower);
     prP := prob_of eqb upper;
     prQ := prob_of eqb lower |}.

(** Randomised response on [k] buckets with input [x] against input [y]: with
    probability 1-p the input, otherwise a uniformly random bucket. *)
Definition rr_prob (p : R) (k x o : Z) : R :=
  (if (o =? x)%Z then 1 - p else 0) + p / IZR k.
Definition buckets (k : Z) : list Z := map Z.of_nat (seq 0 (Z.to_nat k)).
Definition rr_exper (p : R) (k x y : Z) : exper :=
  {| outcome := Z; outs := buckets k; prP := rr_prob p k x; prQ := rr_prob p k y |}.
(** REPLACE_SPECIAL: on the special input the output is uniformly random. *)
Definition rr_special (p : R) (k x : Z) : exper :=
  {| outcome := Z; outs := buckets k; prP := rr_prob p k x; prQ := fun _ => 1 / IZR k |}.

(** The privacy curve of any mechanism, as a function of t = e^eps: hockey stick
    divergences satisfy this (for [t = 0] the value is 1). *)
Definition privacy_curve (h : R -> R) : Prop :=
  h 0 = 1 /\
  (forall t, 0 <= t -> 0 <= h t <= 1) /\
  (forall t1 t2, 0 <= t1 <= t2 -> h t2 <= h t1) /\
  (forall w t1 t2, 0 <= w <= 1 -> 0 <= t1 -> 0 <= t2 ->
     h (w * t1 + (1 - w) * t2) <= w * h t1 + (1 - w) * h t2).

(** Privacy curve of a finite distribution of privacy losses. *)
Definition loss_curve (l : list (R * R)) (eps : R) : R :=
  rsum (fun lp => snd lp * Rmax 0 (1 - exp (eps - fst lp))) l.
(** Its cumulative distribution function. *)
Definition loss_cdf (l : list (R * R)) (x : R) : R :=
  rsum snd (filter (fun lp => Rleb (fst lp) x) l).

(** The neighbouring pairs of k-ary randomised response. *)
Definition rr_pair (rel : relation) (p : R) (k : Z) (E : exper) : Prop :=
  match rel with
  | REPLACE_ONE => exists x y, In x (buckets k) /\ In y (buckets k) /\ x <> y /\ E = rr_exper p k x y
  | REPLACE_SPECIAL => exists x, In x (buckets k) /\ E = rr_special p k x
  | ADD_OR_REMOVE_ONE => False
  end.
