(** The whole audit of a private mechanism: how likely it is to report a violation. *)
From Verif Require Import Base Exn TypesAudit ModelAudit SpecDP SpecAudit ProofHoeffding ProofHist ProofAudit.
Local Arguments Rltb : simpl never.
Local Arguments Rleb : simpl never.
Local Arguments Reqb : simpl never.

Section Audit.
  Context {G D O A : Type} (om : list (O * R)) (m : D -> O -> A) (gen : option (option R) -> G -> D * D * G)
          (dist : hist_config -> list A -> res (list R)) (t : hist_tester) (ok : A -> Prop) (bin : A -> Z)
          (np_tanh chebyshev : list A -> res (list A)) (h : A -> A) (c : runner_config).
  Hypothesis Hom : distribution om.
  Hypothesis Hbin : bins_with dist (t_config t) ok bin.
  Hypothesis Hok : forall d o, ok (h (m d o)).
  Hypothesis Hpost : forall s, postprocess np_tanh chebyshev (runner_post c) s = Ok (map h s).
  Hypothesis Hdp : forall last g, let '(d1, d2, _) := gen last g in
    dp_pair om (m d1) (m d2) (t_epsilon t) (t_delta t) /\ dp_pair om (m d2) (m d1) (t_epsilon t) (t_delta t).
  Hypothesis Hf : 0 < failure_probability c.
  Hypothesis Hn : (0 < num_samples c)%nat.

  Definition pure_estimate (s1 s2 : list A) (f : R) (w : G * list O) : res (option R * (G * list O)) :=
    let? v := estimate_lower_bound dist t s1 s2 f in Ok (v, w).
  Local Notation loop := (runner_loop (tape_generator gen) (tape_mechanism m) pure_estimate (reject_property t) float_gtb np_tanh chebyshev c).

  Lemma dp_post d1 d2 : dp_pair om (m d1) (m d2) (t_epsilon t) (t_delta t) ->
    dp_pair om (fun o => h (m d1 o)) (fun o => h (m d2 o)) (t_epsilon t) (t_delta t).
  Proof. intros H S. exact (H (fun a => S (h a))). Qed.

  Lemma tape_step d l rest (g : G) : List.length l = num_samples c ->
    tape_mechanism m d (num_samples c) (g, l ++ rest) = Ok (map (m d) l, (g, rest)).
  Proof.
    intros E. unfold tape_mechanism. cbn [fst snd].
    rewrite firstn_app, skipn_app, E, Nat.sub_diag, <- E, firstn_all, skipn_all. cbn [firstn skipn app]. rewrite app_nil_r. reflexivity.
  Qed.

  (** Some estimate of a trial rejects. *)
  Definition bad (d1 d2 : D) (l1 l2 : list O) : bool :=
    rejects (reject_property t) (estimate_lower_bound dist t (map h (map (m d1) l1)) (map h (map (m d2) l2)) (failure_probability c))
    || rejects (reject_property t) (estimate_lower_bound dist t (map h (map (m d2) l2)) (map h (map (m d1) l1)) (failure_probability c)).

  Lemma bad_rare d1 d2 : dp_pair om (m d1) (m d2) (t_epsilon t) (t_delta t) -> dp_pair om (m d2) (m d1) (t_epsilon t) (t_delta t) ->
    mean om (num_samples c) (fun l1 => mean om (num_samples c) (fun l2 => indicator (bad d1 d2 l1 l2))) <= failure_probability c / 2.
  Proof.
    intros H12 H21.
    apply (bad_prob om (fun o => bin (h (m d1 o))) (fun o => bin (h (m d2 o))) (h_size (t_config t)) (num_samples c) (num_samples c)
      (failure_probability c) (fun l1 l2 => indicator (bad d1 d2 l1 l2))); auto.
    - intros o. apply Hbin, Hok.
    - intros o. apply Hbin, Hok.
    - intros. apply indicator_range.
    - intros l1 l2 E1 E2 G1 G2. unfold bad. rewrite !map_map.
      rewrite (no_reject om (fun o => h (m d1 o)) (fun o => h (m d2 o)) dist t ok bin); auto; try lia; [|apply dp_post; exact H12].
      rewrite (no_reject om (fun o => h (m d2 o)) (fun o => h (m d1 o)) dist t ok bin); auto; try lia; [|apply dp_post; exact H21].
      cbn [orb indicator]. lra.
    - intros H4 l1 l2 E1 E2. unfold bad.
      rewrite !big_failure by (auto; apply map_nonempty; rewrite map_length; lia). cbn [orb indicator]. lra.
  Qed.

  Lemma loop_violation n : forall trial last acc g,
    mean om (n * (num_samples c + num_samples c)) (fun tape => indicator (reports_violation (loop n trial last acc (g, tape))))
    <= INR n * (failure_probability c / 2).
  Proof.
    induction n as [|n IH]; intros trial last acc g.
    - cbn [Nat.mul mean runner_loop reports_violation termination_reason indicator INR]. lra.
    - replace (S n * (num_samples c + num_samples c))%nat with (num_samples c + (num_samples c + n * (num_samples c + num_samples c)))%nat by lia.
      rewrite mean_app.
      destruct (gen last g) as [[d1 d2] g'] eqn:Eg.
      assert (Hd := Hdp last g). rewrite Eg in Hd. destruct Hd as [H12 H21].
      apply Rle_trans with (mean om (num_samples c) (fun l1 => mean om (num_samples c) (fun l2 => indicator (bad d1 d2 l1 l2) + INR n * (failure_probability c / 2)))).
      + apply mean_le; [exact Hom|]. intros l1 E1. rewrite mean_app. apply mean_le; [exact Hom|]. intros l2 E2.
        set (e12 := estimate_lower_bound dist t (map h (map (m d1) l1)) (map h (map (m d2) l2)) (failure_probability c)).
        set (e21 := estimate_lower_bound dist t (map h (map (m d2) l2)) (map h (map (m d1) l1)) (failure_probability c)).
        assert (Hnn : 0 <= INR n * (failure_probability c / 2)) by (pose proof (pos_INR n); nra).
        assert (Ein : forall rest, loop (S n) trial last acc (g, l1 ++ l2 ++ rest) =
          let? a := e12 in let? b := e21 in
          let e := if float_gtb b a then b else a in
          if reject_property t e
          then Ok (mkResults (acc ++ [e]) FOUND_PRIVACY_VIOLATION (Some (failure_probability c)) (trial + 1), (g', rest))
          else loop n (trial + 1) (Some e) (acc ++ [e]) (g', rest)).
        { intros rest. cbn [runner_loop]. unfold tape_generator at 1. cbn [fst snd]. rewrite Eg. cbn [bind].
          rewrite (tape_step d1 l1 (l2 ++ rest) g' E1). cbn [bind]. rewrite (tape_step d2 l2 rest g' E2). cbn [bind].
          rewrite !Hpost. cbn [bind]. unfold pure_estimate at 1 2. fold e12 e21.
          destruct e12 as [a|]; cbn [bind]; [|reflexivity]. destruct e21 as [b|]; cbn [bind]; reflexivity. }
        rewrite (mean_ext om _ _ (fun rest => indicator (reports_violation (
          let? a := e12 in let? b := e21 in
          let e := if float_gtb b a then b else a in
          if reject_property t e
          then Ok (mkResults (acc ++ [e]) FOUND_PRIVACY_VIOLATION (Some (failure_probability c)) (trial + 1), (g', rest))
          else loop n (trial + 1) (Some e) (acc ++ [e]) (g', rest))))) by (intros; rewrite Ein; reflexivity).
        pose proof (indicator_range (bad d1 d2 l1 l2)) as Hb.
        destruct e12 as [a|] eqn:Ea; cbn [bind].
        2:{ rewrite (mean_const om Hom). cbn [reports_violation indicator]. lra. }
        destruct e21 as [b|] eqn:Eb; cbn [bind].
        2:{ rewrite (mean_const om Hom). cbn [reports_violation indicator]. lra. }
        destruct (reject_property t (if float_gtb b a then b else a)) eqn:Er.
        * cbn [reports_violation termination_reason indicator]. rewrite (mean_const om Hom).
          assert (Hbad : bad d1 d2 l1 l2 = true).
          { unfold bad. fold e12 e21. rewrite Ea, Eb. cbn [rejects]. destruct (float_gtb b a); rewrite Er; [apply orb_true_r|reflexivity]. }
          rewrite Hbad. cbn [indicator]. lra.
        * eapply Rle_trans; [apply IH|]. lra.
      + rewrite (mean_ext om _ _ (fun l1 => mean om (num_samples c) (fun l2 => indicator (bad d1 d2 l1 l2)) + INR n * (failure_probability c / 2))).
        * rewrite mean_plus, mean_const by exact Hom. rewrite S_INR. pose proof (bad_rare d1 d2 H12 H21). lra.
        * intros l1 _ _. rewrite mean_plus, mean_const by exact Hom. reflexivity.
  Qed.
End Audit.

Lemma audit_violation {G D O A} (om : list (O * R)) (m : D -> O -> A) (gen : option (option R) -> G -> D * D * G)
    dist t (ok : A -> Prop) bin np_tanh chebyshev (h : A -> A) c g :
  distribution om -> bins_with dist (t_config t) ok bin -> (forall d o, ok (h (m d o))) ->
  (forall s, postprocess np_tanh chebyshev (runner_post c) s = Ok (map h s)) ->
  (forall last g, let '(d1, d2, _) := gen last g in
    dp_pair om (m d1) (m d2) (t_epsilon t) (t_delta t) /\ dp_pair om (m d2) (m d1) (t_epsilon t) (t_delta t)) ->
  0 < failure_probability c -> (0 < num_samples c)%nat ->
  mean om (Z.to_nat (max_num_trials c) * (num_samples c + num_samples c)) (fun tape =>
    indicator (reports_violation
      (test_privacy (tape_generator gen) (tape_mechanism m)
         (fun s1 s2 f w => let? v := estimate_lower_bound dist t s1 s2 f in Ok (v, w))
         (reject_property t) float_gtb np_tanh chebyshev c (g, tape))))
  <= IZR (Z.max 0 (max_num_trials c)) * (failure_probability c / 2).
Proof.
  intros Hom Hbin Hok Hpost Hdp Hf Hn.
  replace (IZR (Z.max 0 (max_num_trials c))) with (INR (Z.to_nat (max_num_trials c))).
  - apply (loop_violation om m gen dist t ok bin np_tanh chebyshev h c Hom Hbin Hok Hpost Hdp Hf Hn).
  - rewrite INR_IZR_INZ. f_equal. lia.
Qed.
