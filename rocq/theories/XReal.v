(** Floating point special values and integer rounding.
    A Python float is a real number, an infinity or NaN; only the rounding of
    finite results is idealised away. *)
From Verif Require Import Base.

Inductive xr := Fin (r : R) | PInf | MInf | NaN.

(** [math.floor] / [math.ceil] on finite floats. *)
Definition Rfloor (x : R) : Z := Int_part x.
Definition Rceil (x : R) : Z := (- Int_part (- x))%Z.

(** Python [x < y] and [x <= y] on floats: every comparison with NaN is false. *)
Definition xltb (x y : xr) : bool :=
  match x, y with
  | NaN, _ | _, NaN => false
  | PInf, _ => false
  | _, MInf => false
  | MInf, _ => true
  | _, PInf => true
  | Fin a, Fin b => Rltb a b
  end.
Definition xleb (x y : xr) : bool :=
  match x, y with
  | NaN, _ | _, NaN => false
  | MInf, _ => true
  | _, PInf => true
  | PInf, _ => false
  | _, MInf => false
  | Fin a, Fin b => Rleb a b
  end.

(** Python [x == y]: NaN differs from everything. *)
Definition xeqb (x y : xr) : bool :=
  match x, y with
  | Fin a, Fin b => Reqb a b
  | PInf, PInf | MInf, MInf => true
  | _, _ => false
  end.

(** Float arithmetic.  Division by zero follows numpy (no exception); Python's own
    ZeroDivisionError is raised explicitly where the code divides Python floats. *)
Definition xneg (x : xr) : xr :=
  match x with Fin a => Fin (- a) | PInf => MInf | MInf => PInf | NaN => NaN end.
Definition xadd (x y : xr) : xr :=
  match x, y with
  | NaN, _ | _, NaN => NaN
  | PInf, MInf | MInf, PInf => NaN
  | PInf, _ | _, PInf => PInf
  | MInf, _ | _, MInf => MInf
  | Fin a, Fin b => Fin (a + b)
  end.
Definition xsub (x y : xr) : xr := xadd x (xneg y).
(** an infinity times a finite number *)
Definition inf_times (inf : xr) (a : R) : xr :=
  if Rltb 0 a then inf else if Rltb a 0 then xneg inf else NaN.
Definition xmul (x y : xr) : xr :=
  match x, y with
  | NaN, _ | _, NaN => NaN
  | Fin a, Fin b => Fin (a * b)
  | Fin a, inf | inf, Fin a => inf_times inf a
  | PInf, PInf | MInf, MInf => PInf
  | _, _ => MInf
  end.
Definition xdiv (x y : xr) : xr :=
  match x, y with
  | NaN, _ | _, NaN => NaN
  | Fin a, Fin b =>
      if Reqb b 0 then (if Rltb 0 a then PInf else if Rltb a 0 then MInf else NaN)
      else Fin (a / b)
  | Fin _, _ => Fin 0
  | inf, Fin b => if Rltb b 0 then xneg inf else inf
  | _, _ => NaN
  end.

Lemma Rfloor_spec x : IZR (Rfloor x) <= x < IZR (Rfloor x) + 1.
Proof. unfold Rfloor. pose proof (base_Int_part x). lra. Qed.
Lemma Rceil_spec x : IZR (Rceil x) - 1 < x <= IZR (Rceil x).
Proof.
  unfold Rceil. rewrite opp_IZR. pose proof (base_Int_part (-x)). lra.
Qed.
Lemma Rfloor_unique x z : IZR z <= x < IZR z + 1 -> Rfloor x = z.
Proof.
  intros H. pose proof (Rfloor_spec x) as F.
  assert (IZR (Rfloor x) < IZR (z + 1)) by (rewrite plus_IZR; simpl; lra).
  assert (IZR z < IZR (Rfloor x + 1)) by (rewrite plus_IZR; simpl; lra).
  apply lt_IZR in H0. apply lt_IZR in H1. lia.
Qed.
Lemma Rceil_unique x z : IZR z - 1 < x <= IZR z -> Rceil x = z.
Proof.
  intros H. pose proof (Rceil_spec x) as F.
  assert (IZR (Rceil x) < IZR (z + 1)) by (rewrite plus_IZR; simpl; lra).
  assert (IZR z < IZR (Rceil x + 1)) by (rewrite plus_IZR; simpl; lra).
  apply lt_IZR in H0. apply lt_IZR in H1. lia.
Qed.
Lemma Rceil_le_iff x z : (Rceil x <= z)%Z <-> x <= IZR z.
Proof.
  pose proof (Rceil_spec x). split; intros Hz.
  - apply IZR_le in Hz. lra.
  - assert (IZR (Rceil x) < IZR (z + 1)) by (rewrite plus_IZR; simpl; lra).
    apply lt_IZR in H0. lia.
Qed.
Lemma Rfloor_le_iff x z : (z <= Rfloor x)%Z <-> IZR z <= x.
Proof.
  pose proof (Rfloor_spec x). split; intros Hz.
  - apply IZR_le in Hz. lra.
  - assert (IZR z < IZR (Rfloor x + 1)) by (rewrite plus_IZR; simpl; lra).
    apply lt_IZR in H0. lia.
Qed.
