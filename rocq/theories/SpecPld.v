(** Specification vocabulary for PrivacyLossDistribution objects. *)
From Verif Require Import Base XReal Exn SpecDP ModelPmf ModelPld SpecPmf.

(** A pmf usable for upper bounds: well formed, rounding pessimistic, and
    infinity mass at most one. *)
Definition sound_pmf (p : pmf) : Prop :=
  wf p /\ infinity_mass p <= 1 /\ pessimistic_estimate p = true.

(** Such a PLD; a symmetric one has a single pmf. *)
Definition sound_pld (D : pld) : Prop :=
  sound_pmf (pmf_remove D) /\ sound_pmf (pmf_add D) /\
  (symmetric D = true -> pmf_add D = pmf_remove D).

(** Any PLD object: well-formed pmfs, rounding in either direction. *)
Definition wf_pld (D : pld) : Prop :=
  wf (pmf_remove D) /\ wf (pmf_add D) /\
  (symmetric D = true -> pmf_add D = pmf_remove D).

(** Infinity masses at most one. *)
Definition inf_le_1 (D : pld) : Prop :=
  infinity_mass (pmf_remove D) <= 1 /\ infinity_mass (pmf_add D) <= 1.

(** [D] is an upper bound for the computation [E]: at every eps, in both
    directions, no event exceeds the privacy profile. *)
Definition pld_bounds (D : pld) (E : exper) : Prop :=
  valid E /\
  profile_bounds (fun eps => pmf_delta (pmf_remove D) (Fin eps)) E /\
  profile_bounds (fun eps => pmf_delta (pmf_add D) (Fin eps)) (swap E).

(** The accounting loop of a user: compose the given PLDs one after the other,
    each with its own tail truncation. *)
Fixpoint compose_all (D : pld) (l : list (pld * R)) : res pld :=
  match l with
  | [] => Ok D
  | (D', tail) :: l => let? D1 := pld_compose D D' tail in compose_all D1 l
  end.

(** [r] is the result of composing [n] copies of [p] one by one, without
    truncation. *)
Inductive copies (p : pmf) : nat -> pmf -> Prop :=
| copies_one : copies p 1 p
| copies_more : forall n r r', copies p n r -> compose_pmfs r p 0 = Ok r' -> copies p (S n) r'.
