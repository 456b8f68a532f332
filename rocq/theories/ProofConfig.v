(** The constructors of the property testers refuse exactly the configurations that make no sense. *)
From Verif Require Import Base XReal Exn TypesTesters ModelCommon ModelAudit ModelTesters SpecConfig.

Lemma property_ok p r a :
  (exactly_one p r a /\ new_property p r a = Ok (mkProperty p r a)) \/
  (~ exactly_one p r a /\ new_property p r a = Err ValueError).
Proof.
  unfold exactly_one, new_property.
  destruct p, r, a; cbn; try (right; split; [intuition congruence | reflexivity]);
    left; (split; [intuition congruence | reflexivity]).
Qed.

Lemma epsilon_ok e : (exists v, e = Some v /\ 0 < v /\ validate_epsilon e = Ok v) \/
  ((forall v, e = Some v -> v <= 0) /\ validate_epsilon e = Err ValueError).
Proof.
  unfold validate_epsilon. destruct e as [v|]; [|right; split; [discriminate | reflexivity]].
  destruct (Reqb_spec v 0) as [->|N].
  - right. split; [|reflexivity]. intros w [= <-]. lra.
  - destruct (Rleb_spec v 0).
    + right. split; [|reflexivity]. intros w [= <-]. lra.
    + left. exists v. split; [reflexivity|]. split; [lra | reflexivity].
Qed.

Lemma approximate_ok a : (exists e d, valid_approximate a e d /\ validate_approximate a = Ok (e, d)) \/
  ((forall e d, ~ valid_approximate a e d) /\ validate_approximate a = Err ValueError).
Proof.
  unfold validate_approximate, valid_approximate. destruct (epsilon_ok (a_epsilon a)) as [(e & E & P & ->)|[N ->]]; cbn [bind].
  - destruct (a_delta a) as [d|].
    + destruct (Rltb_spec d 0).
      * right. split; [|reflexivity]. intros e' d' (_ & _ & [= <-] & H). lra.
      * left. exists e, d. repeat split; auto; lra.
    + right. split; [|reflexivity]. intros e' d' (_ & _ & [=] & _).
  - right. split; [|reflexivity]. intros e d (E & P & _). specialize (N e E). lra.
Qed.

Lemma not_positive_spec x : not_positive x = false <-> positive_field x.
Proof.
  unfold not_positive, positive_field. destruct x as [v|].
  - destruct (Reqb_spec v 0); destruct (Rleb_spec v 0); cbn [orb]; split; intros H; try discriminate; eauto;
      try (destruct H as (w & [= <-] & H); lra).
    + exists v. split; [reflexivity | lra].
  - split; [discriminate | intros (w & [=] & _)].
Qed.

Lemma training_ok c :
  (exists b, valid_learning c /\ output_bound c = Some b /\ 0 < b /\ validate_training c = Ok b) \/
  (~ (valid_learning c /\ positive_field (output_bound c)) /\ validate_training c = Err ValueError).
Proof.
  unfold validate_training, valid_learning.
  destruct (not_positive (learning_rate c)) eqn:E1.
  { right. split; [|reflexivity]. intros ((H & _) & _). apply not_positive_spec in H. congruence. }
  destruct (not_positive (option_map IZR (training_epochs c))) eqn:E2.
  { right. split; [|reflexivity]. intros ((_ & H & _) & _). apply not_positive_spec in H. congruence. }
  destruct (not_positive (option_map IZR (batch_size c))) eqn:E3.
  { right. split; [|reflexivity]. intros ((_ & _ & H) & _). apply not_positive_spec in H. congruence. }
  apply not_positive_spec in E1, E2, E3. destruct (output_bound c) as [b|].
  - pose proof (not_positive_spec (Some b)) as S. unfold not_positive in S.
    destruct (Reqb b 0 || Rleb b 0)%bool.
    + right. split; [|reflexivity]. intros [_ H]. apply S in H. discriminate.
    + left. exists b. destruct (proj1 S eq_refl) as (w & [= <-] & H). auto.
  - right. split; [|reflexivity]. intros [_ (w & [=] & _)].
Qed.

Lemma hockey_ok c :
  (exists eps delta, valid_approximate (hc_approximate c) eps delta /\ valid_learning (hc_training c) /\
     new_hockey c = Ok (mkHockey eps delta 1)) \/
  (~ (valid_learning (hc_training c) /\ exists eps delta, valid_approximate (hc_approximate c) eps delta) /\
   new_hockey c = Err ValueError).
Proof.
  unfold new_hockey. destruct (approximate_ok (hc_approximate c)) as [(e & d & V & ->)|[N ->]]; cbn [bind].
  - destruct (training_ok (mkTraining (training_epochs (hc_training c)) (batch_size (hc_training c))
        (learning_rate (hc_training c)) (Some 1))) as [(b & L & B & _ & ->)|[N ->]]; cbn [bind].
    + left. exists e, d. cbn in B. injection B as <-. auto.
    + right. split; [|reflexivity]. intros [H _]. apply N. split; [exact H|]. exists 1. split; [reflexivity | lra].
  - right. split; [|reflexivity]. intros [_ (e & d & H)]. exact (N e d H).
Qed.

Lemma mmd_ok c :
  (exists eps delta, valid_approximate (mc_approximate c) eps delta /\ mc_kernel c <> KERNEL_UNSPECIFIED /\
     new_mmd c = Ok (mkMmd (mc_kernel c) (mc_bandwidth c) eps delta)) \/
  (~ (mc_kernel c <> KERNEL_UNSPECIFIED /\ exists eps delta, valid_approximate (mc_approximate c) eps delta) /\
   new_mmd c = Err ValueError).
Proof.
  unfold new_mmd. destruct (approximate_ok (mc_approximate c)) as [(e & d & V & ->)|[N ->]]; cbn [bind].
  - destruct (mc_kernel c) eqn:K.
    + right. split; [|reflexivity]. intros [H _]. congruence.
    + left. exists e, d. repeat split; auto; try apply V; congruence.
    + left. exists e, d. repeat split; auto; try apply V; congruence.
  - right. split; [|reflexivity]. intros [_ (e & d & H)]. exact (N e d H).
Qed.

Lemma renyi_property_ok order p :
  let r := match prop_renyi p, prop_pure p with
    | Some r, _ => let? (e, a) := validate_renyi r in
                   if Reqb order a then Ok (e, a, true) else Err ValueError
    | None, Some p => let? e := validate_pure p in Ok (e, order, false)
    | None, None => Err ValueError
    end in
  (exists eps renyi, valid_renyi_property order p eps renyi /\ r = Ok (eps, order, renyi)) \/
  ((forall eps renyi, ~ valid_renyi_property order p eps renyi) /\ r = Err ValueError).
Proof.
  unfold valid_renyi_property. destruct (prop_renyi p) as [r|].
  - cbn zeta. unfold validate_renyi. destruct (epsilon_ok (r_epsilon r)) as [(e & E & P & ->)|[N ->]]; cbn [bind].
    + destruct (r_alpha r) as [a|].
      * destruct (Reqb_spec a 0) as [->|N0].
        { right. split; [|reflexivity]. intros e' re (_ & _ & _ & [= <-] & H). lra. }
        destruct (Rleb_spec a 1).
        { right. split; [|reflexivity]. intros e' re (_ & _ & _ & [= <-] & H). lra. }
        cbn [bind]. destruct (Reqb_spec order a) as [<-|N1].
        { left. exists e, true. split; [|reflexivity]. repeat split; auto; lra. }
        { right. split; [|reflexivity]. intros e' re (_ & _ & _ & [= <-] & H). congruence. }
      * right. split; [|reflexivity]. intros e' re (_ & _ & _ & [=] & _).
    + right. split; [|reflexivity]. intros e re (_ & E & P & _). specialize (N e E). lra.
  - destruct (prop_pure p) as [q|].
    + cbn zeta. unfold validate_pure. destruct (epsilon_ok (p_epsilon q)) as [(e & E & P & ->)|[N ->]]; cbn [bind].
      * left. exists e, false. auto.
      * right. split; [|reflexivity]. intros e re (_ & E & P). specialize (N e E). lra.
    + right. split; [|reflexivity]. intros e re [].
Qed.

Lemma renyi_ok c :
  (exists eps renyi b, valid_renyi_property (rc_alpha c) (rc_property c) eps renyi /\ valid_learning (rc_training c) /\
     output_bound (rc_training c) = Some b /\ 0 < b /\
     new_renyi c = Ok (mkRenyi (rc_alpha c) (if renyi then eps else Rmin eps (2 * rc_alpha c * (eps * eps))) b)) \/
  (~ (valid_learning (rc_training c) /\ positive_field (output_bound (rc_training c)) /\
      exists eps renyi, valid_renyi_property (rc_alpha c) (rc_property c) eps renyi) /\
   new_renyi c = Err ValueError).
Proof.
  unfold new_renyi. destruct (renyi_property_ok (rc_alpha c) (rc_property c)) as [(e & re & V & ->)|[N ->]]; cbn [bind].
  - destruct (training_ok (rc_training c)) as [(b & L & B & PB & ->)|[N ->]]; cbn [bind].
    + left. exists e, re, b. auto.
    + right. split; [|reflexivity]. intros (H1 & H2 & _). apply N. auto.
  - right. split; [|reflexivity]. intros (_ & _ & e & re & H). exact (N e re H).
Qed.
