(** Specification: Renyi divergence and Renyi differential privacy of a randomised
    computation on two neighbouring inputs.  Nothing here refers to the code. *)
From Verif Require Import Base XReal SpecDP.

(** Every outcome that is possible on the first input is possible on the second. *)
Definition absolutely_continuous (E : exper) : Prop :=
  forall o, In o (outs E) -> prQ E o = 0 -> prP E o = 0.

(** Sum over outcomes of P^a Q^(1-a). *)
Definition renyi_moment (E : exper) (a : R) : R :=
  rsum (fun o => if Reqb (prP E o) 0 then 0
                 else prP E o * Rpower (prP E o / prQ E o) (a - 1)) (outs E).
(** Kullback-Leibler divergence. *)
Definition kl (E : exper) : R :=
  rsum (fun o => if Reqb (prP E o) 0 then 0 else prP E o * ln (prP E o / prQ E o)) (outs E).
(** The Renyi divergence of order [a >= 1]. *)
Definition renyi (E : exper) (a : R) : R :=
  if Reqb a 1 then kl E else ln (renyi_moment E a) / (a - 1).

(** The Renyi divergence of order [a] (a real at least 1, or infinity) is at most
    [r]; an infinite bound says nothing. *)
Definition renyi_bounded (E : exper) (a r : xr) : Prop :=
  match r with
  | PInf => True
  | Fin r =>
      absolutely_continuous E /\
      match a with
      | Fin a => 1 <= a /\ renyi E a <= r
      | PInf => forall o, In o (outs E) -> prP E o <= exp r * prQ E o
      | _ => False
      end
  | _ => False
  end.

(** Renyi differential privacy of the pair of inputs: both directions. *)
Definition rdp_bounded (E : exper) (a r : xr) : Prop :=
  renyi_bounded E a r /\ renyi_bounded (swap E) a r.

(** A curve: bounds at several orders. *)
Definition rdp_curve (orders rdp : list xr) (E : exper) : Prop :=
  valid E /\ length orders = length rdp /\
  forall a r, In (a, r) (combine orders rdp) -> rdp_bounded E a r.

(** Poisson subsampling with probability [q] of the record in which the inputs differ:
    on the first input the computation runs with the record with probability [q] and
    without it otherwise. *)
Definition poisson_mix (q : R) (E : exper) : exper :=
  {| outcome := outcome E; outs := outs E;
     prP := fun o => (1 - q) * prQ E o + q * prP E o; prQ := prQ E |}.

(** Least bound on the Renyi divergences of both directions. *)
Definition least_bound (E : exper) (a r : xr) : Prop :=
  rdp_bounded E a r /\ forall r', rdp_bounded E a r' -> xleb r r' = true.
