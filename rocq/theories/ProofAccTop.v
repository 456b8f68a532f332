(** The generic facts about accountants, for the two accountants. *)
From Verif Require Import Base XReal Exn TypesEvent TypesRelation SpecEvent SpecRdp
  ModelBuilder ModelPmf ModelPld ModelMake ModelRdp ModelAccountant SpecAccountant
  ProofAccGen ProofAccRdp ProofAccAdd ProofAccMono ProofAccPld ProofLedger ProofAccEx.

Lemma rdp_unsupported frac fuel rel orders A ea n A' :
  acc_compose (rdp_mc frac fuel rel orders) A ea n = (A', Err UnsupportedEventError) -> A' = A.
Proof.
  intros H. eapply (compose_unsup _ (rdp_dry frac fuel rel orders)); [apply rdp_dry_pure | apply rdp_no_raise | exact H].
Qed.
Lemma pld_unsupported gaussian_pld laplace_pld mixture_pld fast_len rel disc tail A ea n A' :
  constructors_clean gaussian_pld laplace_pld mixture_pld ->
  acc_compose (pld_mc gaussian_pld laplace_pld mixture_pld fast_len rel disc tail) A ea n = (A', Err UnsupportedEventError) ->
  A' = A.
Proof.
  intros HC H. eapply (compose_unsup _ (pld_dry gaussian_pld laplace_pld mixture_pld fast_len rel disc tail)); [apply pld_dry_pure | apply pld_no_raise, HC | exact H].
Qed.
Lemma unsupported_example frac fuel A :
  acc_compose (rdp_mc frac fuel ADD_OR_REMOVE_ONE [Fin 2]) A
    (EventObj (SelfComposed (Composed [Gaussian (PyFloat 1); RandResp (PyFloat (1/2)) 2]) 3)) 2
  = (A, Err UnsupportedEventError).
Proof. apply (unsup_compose _ (rdp_dry frac fuel ADD_OR_REMOVE_ONE [Fin 2])); [apply rdp_dry_pure | reflexivity]. Qed.

Lemma rdp_supports frac fuel rel orders A A' e n :
  let mc := rdp_mc frac fuel rel orders in
  fst (acc_supports mc A e) = A /\
  (snd (acc_supports mc A e) = Ok false <-> snd (acc_compose mc A' (EventObj e) n) = Err UnsupportedEventError) /\
  (forall x, snd (acc_supports mc A e) = Err x -> snd (acc_compose mc A' (EventObj e) n) = Err x).
Proof.
  cbv zeta. split; [|split].
  - rewrite (supports_pure _ (rdp_dry frac fuel rel orders)) by apply rdp_dry_pure. reflexivity.
  - symmetry. apply (supports_iff _ (rdp_dry frac fuel rel orders)); [apply rdp_dry_pure | apply rdp_no_raise].
  - intros x H. rewrite (supports_raise _ (rdp_dry frac fuel rel orders) (rdp_dry_pure frac fuel rel orders) A' A e n x H). reflexivity.
Qed.

Lemma pld_dry_total gaussian_pld laplace_pld mixture_pld fast_len rel disc tail e x :
  pld_dry gaussian_pld laplace_pld mixture_pld fast_len rel disc tail e <> Raise x.
Proof.
  set (dry := pld_dry gaussian_pld laplace_pld mixture_pld fast_len rel disc tail).
  pose proof (pld_dry_pure gaussian_pld laplace_pld mixture_pld fast_len rel disc tail) as P. fold dry in P.
  induction e as [ | | | p k | sg | sg | e c IH | es IH | q e IH | a b e IH | a b e IH | sg l | e m sh IH | sg a b ] using event_ind';
    unfold dry, pld_dry; cbn [pld_mc]; try discriminate.
  - destruct (relation_eqb _ _); discriminate.
  - rewrite P. exact IH.
  - change (snd (pld_mc gaussian_pld laplace_pld mixture_pld fast_len rel disc tail false any_state (Composed es) 0) <> Raise x).
    rewrite pld_composed. rewrite Forall_forall in IH. apply seq_mc_not; [discriminate|].
    intros e s I. rewrite P. apply IH, I.
  - destruct (relation_eqb _ _); [discriminate|]. destruct e; discriminate.
Qed.

Lemma pld_supports gaussian_pld laplace_pld mixture_pld fast_len rel disc tail A A' e n :
  constructors_clean gaussian_pld laplace_pld mixture_pld ->
  let mc := pld_mc gaussian_pld laplace_pld mixture_pld fast_len rel disc tail in
  fst (acc_supports mc A e) = A /\
  (snd (acc_supports mc A e) = Ok false <-> snd (acc_compose mc A' (EventObj e) n) = Err UnsupportedEventError) /\
  (exists b, snd (acc_supports mc A e) = Ok b).
Proof.
  intros HC. cbv zeta. set (dry := pld_dry gaussian_pld laplace_pld mixture_pld fast_len rel disc tail).
  split; [|split].
  - rewrite (supports_pure _ dry) by apply pld_dry_pure. reflexivity.
  - symmetry. apply (supports_iff _ dry); [apply pld_dry_pure | apply pld_no_raise, HC].
  - rewrite (supports_pure _ dry) by apply pld_dry_pure. cbn [snd].
    assert (N : forall x, dry e <> Raise x) by (intros; apply pld_dry_total).
    destruct (dry e); [eexists; reflexivity | eexists; reflexivity | exfalso; eapply N; reflexivity].
Qed.

Lemma repeat_forgets frac fuel :
  let mc := rdp_mc frac fuel ADD_OR_REMOVE_ONE [Fin 2] in
  let A := fst (acc_compose mc (rdp_new [Fin 2]) (EventObj NonPrivate) 1) in
  let e := RepeatAndSelect (Gaussian (PyFloat 1)) (PyFloat (1/2)) (PyFloat 1) in
  snd (acc_compose mc A (EventObj e) 1) = Err ValueError /\
  rdp_epsilon [Fin 2] A (1/10) = Ok PInf /\
  exists x, rdp_epsilon [Fin 2] (fst (acc_compose mc A (EventObj e) 1)) (1/10) = Ok (Fin x).
Proof.
  cbv zeta. split; [exact (proj2 (bad_state frac fuel))|]. split; [exact (eps_inf frac fuel) | exact (forgets frac fuel)].
Qed.

Lemma plain_example : moments_at_least_one frac0 /\ orders_above_one [Fin 2] /\
  Forall plain_call (map (fun en => CallAcc (EventObj (fst en)) (snd en)) two_gaussians).
Proof.
  split; [exact frac0_ok|]. split; [exact two_ok|]. unfold two_gaussians. repeat constructor; cbn; lia.
Qed.
Lemma additive_example frac fuel rel :
  (exists A, runs (rdp_mc frac fuel rel [Fin 2]) (rdp_new [Fin 2]) two_gaussians A /\ acc_state A = [Fin 7]) /\
  pos_history two_gaussians /\ history_atoms two_gaussians = repeat (Gaussian (PyFloat 1)) 7.
Proof. split; [apply gaussians_run|]. split; [apply gaussians_ok | reflexivity]. Qed.

Lemma nonprivate_example frac fuel rel :
  let e := SelfComposed (Composed [Gaussian (PyFloat 1); NonPrivate]) 2 in
  pos_counts e /\ no_repeat e /\ In NonPrivate (atoms e) /\
  exists A', acc_compose (rdp_mc frac fuel rel [Fin 2]) (rdp_new [Fin 2]) (EventObj e) 3 = (A', Ok tt).
Proof.
  cbv zeta. split; [cbn; repeat split; lia|]. split; [cbn; repeat split|]. split; [right; left; reflexivity|].
  eexists. apply (compose_fine _ (rdp_dry frac fuel rel [Fin 2]) (rdp_dry_pure frac fuel rel [Fin 2])); [reflexivity | reflexivity | apply new_inv|].
  change (rdp_mc frac fuel rel [Fin 2] true (acc_state (rdp_new [Fin 2])) (SelfComposed (Composed [Gaussian (PyFloat 1); NonPrivate]) 2) 3)
    with (rdp_mc frac fuel rel [Fin 2] true [Fin 0] (Composed [Gaussian (PyFloat 1); NonPrivate]) (2 * 3)).
  rewrite (rdp_composed frac fuel). cbn [seq_mc]. rewrite g1. reflexivity.
Qed.

Lemma pair_differs frac fuel :
  acc_state (fst (acc_compose (rdp_mc frac fuel ADD_OR_REMOVE_ONE [Fin 2]) (rdp_new [Fin 2]) (EventObj (pair_of (PyFloat 1))) 1)) = [Fin 2] /\
  acc_state (fst (acc_compose (rdp_mc frac fuel ADD_OR_REMOVE_ONE [Fin 2]) (rdp_new [Fin 2]) (EventObj (pair_of (PyInt 1))) 1)) = [Fin 1].
Proof.
  split; cbn [acc_compose]; rewrite (rdp_dry_pure frac fuel).
  - replace (rdp_dry frac fuel ADD_OR_REMOVE_ONE [Fin 2] (pair_of (PyFloat 1))) with Fine.
    2:{ unfold rdp_dry, pair_of. cbn [rdp_mc relation_eqb]. destruct (gaussian_eff (Composed [Gaussian (PyFloat 1); Gaussian (PyFloat 1)])) as (x & E & _).
        { cbn. repeat split; try lra; discriminate. } rewrite E. reflexivity. }
    cbn [builder_compose pair_of]. change (1 <? 1)%Z with false. cbn iota. fold (pair_of (PyFloat 1)). rewrite pair_float.
    cbn. do 2 f_equal. lra.
  - replace (rdp_dry frac fuel ADD_OR_REMOVE_ONE [Fin 2] (pair_of (PyInt 1))) with Fine by reflexivity.
    cbn [builder_compose pair_of]. change (1 <? 1)%Z with false. cbn iota. fold (pair_of (PyInt 1)). rewrite pair_int.
    cbn. do 2 f_equal. lra.
Qed.

Lemma tree_example : gaussian_tree (Composed [Gaussian (PyFloat 1); SelfComposed (Gaussian (PyFloat 2)) 4]) /\
  mixed_tree (Composed [Gaussian (PyFloat 1); SelfComposed (Laplace (PyFloat 2)) 4]) /\
  other_leaf (Composed [Gaussian (PyFloat 1); SelfComposed (Laplace (PyFloat 2)) 4]) = true.
Proof. cbn. repeat split; try lia; try lra; discriminate. Qed.
