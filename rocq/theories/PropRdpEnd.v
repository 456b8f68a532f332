(** The RDP accountant on the mechanisms its events describe. *)
From Verif Require Import Base XReal Exn TypesEvent TypesRelation SpecEvent SpecDP SpecMech SpecRenyi SpecRdp SpecAccountant SpecSelect SpecRdpEvent
  ModelRdp ModelAccountant ProofAccAdd ProofRdpEnd ProofRdpEndEx.

(** C59: for every history of composed events and every adaptive interaction made of
    computations that the events describe (noisy queries, on all the records or on a Poisson
    sample or on a sample of fixed size drawn without replacement, randomised response,
    tree aggregation, selection of the best of a random number of runs of any of these, nested to
    any depth), the accountant's RDP bounds the Renyi divergences in both directions, and the
    epsilon and delta it reports are guarantees.  The series for fractional orders of the Poisson
    sampled Gaussian mechanism is assumed to bound its moments. *)
Theorem C59_end_to_end_partial : forall Phi, normal_cdf Phi -> forall frac fuel rel orders,
  (forall o, In o orders -> order_ok o) -> forall h A E,
  runs (rdp_mc frac fuel rel orders) (rdp_new orders) h A -> pos_history h ->
  (forall a o, In a (flat_map parts (map fst h)) -> In o orders -> defined_at o a /\ frac_sound_for Phi frac o a) ->
  interaction (map (rdp_event Phi rel) (history_atoms h)) E ->
  rdp_curve orders (acc_state A) E /\
  (orders <> [] -> real_orders orders -> forall delta e, rdp_epsilon orders A delta = Ok (Fin e) -> dp_both E e delta) /\
  (forall eps d, rdp_delta orders A (Fin eps) = Ok d -> exists x, d = Fin x /\ 0 <= x <= 1 /\ dp_both E eps x).
Proof. exact rdp_end_to_end. Qed.
Print Assumptions C59_end_to_end_partial.

(** C67: when one record may be replaced, the RDP charged for a sample drawn without replacement,
    and for everything else that is accepted under this relation, bounds the Renyi divergences
    in both directions, and the reported epsilon and delta are guarantees.  Nothing is assumed
    about the numerical series, which is not used under this relation. *)
Theorem C67_replace_one : forall Phi, normal_cdf Phi -> forall frac fuel orders,
  (forall o, In o orders -> order_ok o) -> forall h A E,
  runs (rdp_mc frac fuel REPLACE_ONE orders) (rdp_new orders) h A -> pos_history h ->
  (forall a o, In a (flat_map parts (map fst h)) -> In o orders -> defined_at o a) ->
  interaction (map (rdp_event Phi REPLACE_ONE) (history_atoms h)) E ->
  rdp_curve orders (acc_state A) E /\
  (orders <> [] -> real_orders orders -> forall delta e, rdp_epsilon orders A delta = Ok (Fin e) -> dp_both E e delta) /\
  (forall eps d, rdp_delta orders A (Fin eps) = Ok d -> exists x, d = Fin x /\ 0 <= x <= 1 /\ dp_both E eps x).
Proof. exact rdp_replace_one. Qed.
Print Assumptions C67_replace_one.

(** C67, C59: at order 1, left out above, no number is charged for a proper sample. *)
Theorem C67_order_one : forall frac q, 0 < q < 1 ->
  (forall sigma r, poisson_order frac q sigma (Fin 1) <> Fin r) /\ (forall sigma x, wor_order q sigma (Fin 1) = Ok x -> x = NaN).
Proof. exact sampled_order_one. Qed.
Print Assumptions C67_order_one.
Example C67_order_one_example : wor_order (1/2) (SNum (Fin 1)) (Fin 1) = Ok NaN.
Proof. exact sampled_order_one_example. Qed.

(** The noisy number of votes in two of four records, three times, with another query. *)
Example C67_example : forall Phi frac fuel, normal_cdf Phi -> let orders := [Fin 2; Fin (7/2)] in exists A E,
  runs (rdp_mc frac fuel REPLACE_ONE orders) (rdp_new orders) census_history A /\ pos_history census_history /\
  (forall a o, In a (flat_map parts (map fst census_history)) -> In o orders -> defined_at o a /\ frac_sound_for Phi frac o a) /\
  interaction (map (rdp_event Phi REPLACE_ONE) (history_atoms census_history)) E.
Proof. exact census_example. Qed.

Example C59_example : forall Phi frac fuel, let orders := [Fin 2; Fin 3] in exists A E,
  runs (rdp_mc frac fuel ADD_OR_REMOVE_ONE orders) (rdp_new orders) mixed_history A /\ pos_history mixed_history /\
  (forall a o, In a (flat_map parts (map fst mixed_history)) -> In o orders -> defined_at o a /\ frac_sound_for Phi frac o a) /\
  interaction (map (rdp_event Phi ADD_OR_REMOVE_ONE) (history_atoms mixed_history)) E /\
  length (history_atoms mixed_history) = 26%nat.
Proof. exact mixed_example. Qed.

Example C59_tree_example : forall Phi frac fuel, let orders := [Fin 2; PInf] in exists A E,
  runs (rdp_mc frac fuel REPLACE_SPECIAL orders) (rdp_new orders) tree_history A /\ pos_history tree_history /\
  (forall a o, In a (flat_map parts (map fst tree_history)) -> In o orders -> defined_at o a /\ frac_sound_for Phi frac o a) /\
  interaction (map (rdp_event Phi REPLACE_SPECIAL) (history_atoms tree_history)) E.
Proof. exact tree_run_example. Qed.

Example C59_selection_example : forall Phi frac fuel, normal_cdf Phi -> let orders := [Fin 2; Fin 3] in exists A E,
  runs (rdp_mc frac fuel ADD_OR_REMOVE_ONE orders) (rdp_new orders) tuned_history A /\ pos_history tuned_history /\
  (forall a o, In a (flat_map parts (map fst tuned_history)) -> In o orders -> defined_at o a /\ frac_sound_for Phi frac o a) /\
  interaction (map (rdp_event Phi ADD_OR_REMOVE_ONE) (history_atoms tuned_history)) E.
Proof. exact tuned_example. Qed.
