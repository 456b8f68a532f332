(** The series for fractional orders of Poisson-sampled Gaussian noise, and the RDP accountant
    with it. *)
From Verif Require Import Base XReal Exn TypesEvent TypesRelation SpecEvent SpecDP SpecMech SpecRenyi SpecRdp SpecAccountant SpecSelect SpecRdpEvent SpecSeries
  ModelRdp ModelAccountant ModelFrac ProofFrac ProofFracEnd ProofFracEx.
Local Open Scope R_scope.

(** C68: for every sampling probability, noise multiplier and fractional order above 1, the
    series either does not converge, which leaves the order out, or its result is at most
    2^(floor a + 2) e^-30, as a factor, below the moment of the sampled mechanism, whatever
    queries with this joint noise are answered on the sample. *)
Theorem C68_series : forall Phi, normal_cdf Phi -> forall q s a sigmas E,
  0 < q < 1 -> 0 < s -> 1 < a -> is_integer a = false ->
  Forall (fun t => 0 < t) sigmas -> / (s * s) = rsum (fun t => / (t * t)) sigmas -> joint (map (gaussian_query Phi) sigmas) E ->
  match log_a_frac Phi q (Fin s) (Fin a) with
  | Fin x => renyi_moment (poisson_mix q E) a <= exp x * (1 + slack a)
  | PInf => True
  | _ => False
  end.
Proof. exact series. Qed.
Print Assumptions C68_series.

(** If it does not stop before the step that exceeds the order, it is not below the moment. *)
Theorem C68_long : forall Phi, normal_cdf Phi -> forall q s a n t sigmas E,
  0 < q < 1 -> 0 < s -> 1 < a -> is_integer a = false ->
  Forall (fun t => 0 < t) sigmas -> / (s * s) = rsum (fun t => / (t * t)) sigmas -> joint (map (gaussian_query Phi) sigmas) E ->
  frac_loop Phi q s a 1000 0 None None None None = Some (n, t) -> a <= INR n ->
  exists x, log_a_frac Phi q (Fin s) (Fin a) = Fin x /\ renyi_moment (poisson_mix q E) a <= exp x.
Proof. exact series_long. Qed.
Print Assumptions C68_long.

(** One record in 1 + e^16 is sampled, with noise of 1, at order 3/2: the series stops at step 2. *)
Example C68_example : forall Phi, normal_cdf Phi ->
  0 < rare < 1 /\ is_integer (3 / 2) = false /\ 3 / 2 <= INR 2 /\
  exists x, frac_loop Phi rare 1 (3 / 2) 1000 0 None None None None = Some (2%nat, Some x).
Proof.
  intros Phi HPhi. split; [exact rare_open|]. split; [exact half_integer|]. split; [cbn; lra | exact (rare_stops Phi HPhi)].
Qed.

(** C69: for every history of composed events (the Poisson sampled ones not selected from) and
    every adaptive interaction made of computations that the events describe, the accountant's
    RDP, raised by the error of the series in each sampled event, bounds the Renyi divergences
    in both directions, and the epsilon and delta converted from it are guarantees.  Nothing is
    assumed about the series. *)
Theorem C69_end_to_end : forall Phi, normal_cdf Phi -> forall fuel rel orders,
  (forall o, In o orders -> order_ok o) -> forall h A E,
  runs (rdp_mc (log_a_frac Phi) fuel rel orders) (rdp_new orders) h A -> pos_history h -> not_selected h ->
  (forall a o, In a (flat_map parts (map fst h)) -> In o orders -> defined_at o a) ->
  interaction (map (rdp_event Phi rel) (history_atoms h)) E ->
  let rdp := vec_add (acc_state A) (slack_rdp (sampled_events h) orders) in
  rdp_curve orders rdp E /\
  (orders <> [] -> real_orders orders -> forall delta e o, compute_epsilon orders rdp delta = Ok (Fin e, o) -> dp_both E e delta) /\
  (forall eps d o, compute_delta orders rdp (Fin eps) = Ok (d, o) -> exists x, d = Fin x /\ 0 <= x <= 1 /\ dp_both E eps x).
Proof. exact raised_end_to_end. Qed.
Print Assumptions C69_end_to_end.

Example C69_example : forall Phi fuel, normal_cdf Phi -> let orders := [Fin (3 / 2); Fin 2] in exists A E,
  runs (rdp_mc (log_a_frac Phi) fuel ADD_OR_REMOVE_ONE orders) (rdp_new orders) rare_history A /\ pos_history rare_history /\ not_selected rare_history /\
  (forall a o, In a (flat_map parts (map fst rare_history)) -> In o orders -> defined_at o a) /\
  interaction (map (rdp_event Phi ADD_OR_REMOVE_ONE) (history_atoms rare_history)) E /\
  sampled_events rare_history = 10%nat.
Proof. exact rare_example. Qed.
