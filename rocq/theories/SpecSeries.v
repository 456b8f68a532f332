(** Specification vocabulary for the series of fractional orders.  Nothing here refers to the
    code except through the events and the orders. *)
From Verif Require Import Base XReal TypesEvent SpecEvent SpecAccountant SpecRdpEvent ModelRdp.
Local Open Scope R_scope.

(** How far below a log moment at order [a] the truncated series may be: 2^(floor a + 2) e^-30. *)
Definition slack (a : R) : R := 2 ^ (Z.to_nat (Rfloor a) + 2) * exp (- (30)).
(** The RDP that accounts for this in [n] events, at each of the orders (integer orders need
    none). *)
Definition slack_rdp (n : nat) (orders : list xr) : list xr :=
  map (fun o => Fin (match o with Fin a => if is_integer a then 0 else INR n * (slack a / (a - 1)) | _ => 0 end)) orders.
(** The Poisson sampled events of a history; they are not selected from. *)
Definition is_sampled (a : event num) : bool := match a with PoissonSampled _ _ => true | _ => false end.
Definition sampled_events (h : list (event num * Z)) : nat := length (filter is_sampled (history_atoms h)).
Definition not_selected (h : list (event num * Z)) : Prop :=
  forall a b, In a (history_atoms h) -> In b (parts a) -> is_sampled b = true -> b = a.
