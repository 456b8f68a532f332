(** The PLD accountant with all the constructors it calls. *)
From Verif Require Import Base XReal Exn TypesEvent TypesRelation ModelPmf ModelPld ModelMech ModelMixture ModelAccountant ModelSearch ModelCalculator SpecAccErr.

Section Full.
  Context (Phi ppf : R -> R) (fast_len : nat -> nat) (fuel : nat).
  (** dp_accounting/pld/pld_privacy_accountant.py 103-117: the call of
      [from_mixture_gaussian_mechanism], with its default arguments
      (privacy_loss_distribution.py 1372-1380) except for the discretization interval.
      Simplification: parameters that are not finite, which never come from this package, raise. *)
  Definition mixture_pld_of (disc : R) (sd : xr) (sens probs : list xr) : res pld :=
    match sd, finite_values sens, finite_values probs with
    | Fin s, Some ss, Some ps => from_mixture_gaussian_mechanism Phi ppf fuel s ss ps true disc (-50) true
    | _, _, _ => Err ValueError
    end.
  (** [PLDAccountant] with the three constructors from noise mechanisms. *)
  Definition full_accountant (rel : relation) (disc : R) : bool -> pld_state -> event num -> Z -> pld_state * mc_out :=
    pld_accountant Phi ppf (mixture_pld_of disc) fast_len fuel rel disc.
End Full.
