(** Properties of the constructors of the property testers. *)
From Verif Require Import Base XReal Exn TypesTesters ModelTesters SpecConfig ProofConfig.

(** C81: a PrivacyProperty holds exactly one guarantee; otherwise it raises ValueError. *)
Theorem C81_property : forall p r a,
  (exactly_one p r a /\ new_property p r a = Ok (mkProperty p r a)) \/
  (~ exactly_one p r a /\ new_property p r a = Err ValueError).
Proof. exact property_ok. Qed.
Print Assumptions C81_property.

(** C81: the testers are constructed, with the values of the configuration, exactly if it is
    meaningful; otherwise they raise ValueError. *)
Theorem C81_hockey : forall c,
  (exists eps delta, valid_approximate (hc_approximate c) eps delta /\ valid_learning (hc_training c) /\
     new_hockey c = Ok (mkHockey eps delta 1)) \/
  (~ (valid_learning (hc_training c) /\ exists eps delta, valid_approximate (hc_approximate c) eps delta) /\
   new_hockey c = Err ValueError).
Proof. exact hockey_ok. Qed.
Print Assumptions C81_hockey.
Theorem C81_mmd : forall c,
  (exists eps delta, valid_approximate (mc_approximate c) eps delta /\ mc_kernel c <> KERNEL_UNSPECIFIED /\
     new_mmd c = Ok (mkMmd (mc_kernel c) (mc_bandwidth c) eps delta)) \/
  (~ (mc_kernel c <> KERNEL_UNSPECIFIED /\ exists eps delta, valid_approximate (mc_approximate c) eps delta) /\
   new_mmd c = Err ValueError).
Proof. exact mmd_ok. Qed.
Print Assumptions C81_mmd.
(** The Renyi tester; a pure guarantee becomes the smaller of epsilon and 2 * order * epsilon^2. *)
Theorem C81_renyi : forall c,
  (exists eps renyi b, valid_renyi_property (rc_alpha c) (rc_property c) eps renyi /\ valid_learning (rc_training c) /\
     output_bound (rc_training c) = Some b /\ 0 < b /\
     new_renyi c = Ok (mkRenyi (rc_alpha c) (if renyi then eps else Rmin eps (2 * rc_alpha c * (eps * eps))) b)) \/
  (~ (valid_learning (rc_training c) /\ positive_field (output_bound (rc_training c)) /\
      exists eps renyi, valid_renyi_property (rc_alpha c) (rc_property c) eps renyi) /\
   new_renyi c = Err ValueError).
Proof. exact renyi_ok. Qed.
Print Assumptions C81_renyi.

Example C81_example :
  valid_renyi_property 2 (mkProperty (Some (mkPure (Some 1))) None None) 1 false /\
  valid_learning (mkTraining (Some 3%Z) (Some 10%Z) (Some (1 / 2)) (Some 4)) /\
  ~ (exists eps renyi, valid_renyi_property 1 (mkProperty None (Some (mkRenyiDp (Some 1) (Some 1))) None) eps renyi).
Proof.
  split; [cbn; repeat split; lra|]. split.
  - repeat split; eexists; (split; [reflexivity|]); cbn; try lra.
  - intros (e & r & _ & _ & _ & [=] & H). lra.
Qed.
