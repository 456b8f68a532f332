(** The RDP of selecting the best of a random number of runs. *)
From Verif Require Import Base XReal Exn SpecDP SpecRenyi SpecRdp SpecSelect ModelRdp ProofSelect ProofSelectLaw ProofSelectEnd ProofSelectSound ProofSelectEx.

(** C62: a computation with the given RDP is run a random number of times, Poisson or truncated
    negative binomial with the given mean and shape, and only the best run is released.  The RDP
    that the accountant computes bounds the Renyi divergences of the release, at every order and
    in both directions.  The mean is to be declared with a relative margin of 6e-90 (none for the
    geometric distribution), and order 1 is excluded for the negative binomial. *)
Theorem C62_selection : forall fuel orders rdp mean shape v E A pk,
  (forall a, In a orders -> order_ok a) -> (shape <> PInf -> ~ In (Fin 1) orders) ->
  rdp_curve orders rdp E -> rdp_repeat_and_select fuel orders rdp (Fin mean) shape = Ok v ->
  runs_law shape mean pk -> selects pk E A -> rdp_curve orders v A.
Proof. exact select_sound. Qed.
Print Assumptions C62_selection.

(** The distributions of the number of runs are distributions, and have the means that the
    accountant takes them to have. *)
Theorem C62_distributions : forall s g mu, 0 <= s -> 0 < g <= 1 -> 0 <= mu ->
  (forall k, 0 <= tnb_runs s g k) /\ infinite_sum (tnb_runs s g) 1 /\
  infinite_sum (fun k => INR k * tnb_runs s g k) (if Reqb g 1 then 1 else tnb_true_mean g s) /\
  (forall k, 0 <= poisson_runs mu k) /\ infinite_sum (poisson_runs mu) 1 /\ infinite_sum (fun k => INR k * poisson_runs mu k) mu.
Proof. exact runs_distributions. Qed.
Print Assumptions C62_distributions.

(** The Renyi divergence does not decrease with the order, which is what lets the accountant take
    minima over larger orders. *)
Theorem C62_order_monotone : forall E a b r, valid E -> order_ok a -> xleb a b = true -> renyi_bounded E b r -> renyi_bounded E a r.
Proof. exact bounded_order. Qed.
Print Assumptions C62_order_monotone.

(** A coin with bias 3/4 or 1/4, geometric number of runs of mean 2. *)
Example C62_geometric_example : forall fuel, let orders := [Fin 2; PInf] in let rdp := [Fin (ln 3); Fin (ln 3)] in exists A,
  (forall a, In a orders -> order_ok a) /\ rdp_curve orders rdp coin /\
  rdp_repeat_and_select fuel orders rdp (Fin 2) (Fin 1) = Ok [Fin (ln 18); Fin (ln 18)] /\
  runs_law (Fin 1) 2 (tnb_runs 1 (1/2)) /\ selects (tnb_runs 1 (1/2)) coin A.
Proof. exact geometric_example. Qed.

Example C62_logarithmic_example : let orders := [Fin 2; PInf] in let rdp := [Fin (ln 3); Fin (ln 3)] in exists fuel v A,
  (forall a, In a orders -> order_ok a) /\ rdp_curve orders rdp coin /\
  rdp_repeat_and_select fuel orders rdp (Fin 3) (Fin 0) = Ok v /\
  runs_law (Fin 0) 3 (tnb_runs 0 (1/2)) /\ selects (tnb_runs 0 (1/2)) coin A.
Proof. exact logarithmic_example. Qed.

Example C62_poisson_example : forall fuel, let orders := [Fin 2; PInf] in let rdp := [Fin (ln 3); Fin (ln 3)] in exists v A,
  (forall a, In a orders -> order_ok a) /\ rdp_curve orders rdp coin /\
  rdp_repeat_and_select fuel orders rdp (Fin 2) PInf = Ok v /\
  runs_law PInf 2 (poisson_runs 2) /\ selects (poisson_runs 2) coin A.
Proof. exact poisson_example. Qed.
