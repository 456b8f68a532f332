(** Whole audits with the testers that train a model. *)
From Verif Require Import Base Exn XReal TypesAudit SpecDP SpecAudit SpecRenyi ModelAudit TypesTesters ModelTesters SpecTesters ProofHoeffding ProofTailBounds ProofTailSums ProofTrained ProofVariational ProofHockey ProofRenyiTester.
Local Arguments Rltb : simpl never.
Local Arguments Rleb : simpl never.
Local Arguments Reqb : simpl never.

(** Does one of the two estimates of a trial reject? *)
Definition trial_rejects {S A V} (estimate : list A -> list A -> R -> S -> res (V * S)) (reject : V -> bool) (failure : R)
    (s : S) (s1 s2 : list A) : bool :=
  match estimate s1 s2 failure s with
  | Err _ => false
  | Ok (e12, s') => match estimate s2 s1 failure s' with Err _ => false | Ok (e21, _) => reject e12 || reject e21 end
  end.

Section Audit.
  Context {S D O A V : Type} (om : list (O * R)) (m : D -> O -> A) (gen : option V -> S -> D * D * S)
          (estimate : list A -> list A -> R -> S -> res (V * S)) (reject : V -> bool) (gtb : V -> V -> bool)
          (np_tanh chebyshev : list A -> res (list A)) (h : A -> A) (c : runner_config) (B : R).
  Hypothesis Hom : distribution om.
  Hypothesis Hpost : forall s, postprocess np_tanh chebyshev (runner_post c) s = Ok (map h s).
  Hypothesis HB : 0 <= B.
  Hypothesis Htrial : forall last s0 s, let '(d1, d2, _) := gen last s0 in
    mean om (num_samples c) (fun l1 => mean om (num_samples c) (fun l2 =>
      indicator (trial_rejects estimate reject (failure_probability c) s (map h (map (m d1) l1)) (map h (map (m d2) l2))))) <= B.
  Local Notation loop := (runner_loop (tape_generator gen) (tape_mechanism m) (tape_tester estimate) reject gtb np_tanh chebyshev c).

  Lemma tape_step d l rest (g : S) : List.length l = num_samples c ->
    tape_mechanism m d (num_samples c) (g, l ++ rest) = Ok (map (m d) l, (g, rest)).
  Proof.
    intros E. unfold tape_mechanism. cbn [fst snd].
    rewrite firstn_app, skipn_app, E, Nat.sub_diag, <- E, firstn_all, skipn_all. cbn [firstn skipn app]. rewrite app_nil_r. reflexivity.
  Qed.

  Lemma loop_violation n : forall trial last acc g,
    mean om (n * (num_samples c + num_samples c)) (fun tape => indicator (reports_violation (loop n trial last acc (g, tape)))) <= INR n * B.
  Proof.
    induction n as [|n IH]; intros trial last acc g.
    - cbn [Nat.mul mean runner_loop reports_violation termination_reason indicator INR]. lra.
    - replace (Datatypes.S n * (num_samples c + num_samples c))%nat with (num_samples c + (num_samples c + n * (num_samples c + num_samples c)))%nat by lia.
      rewrite mean_app.
      destruct (gen last g) as [[d1 d2] g'] eqn:Eg.
      assert (Hd := Htrial last g g'). rewrite Eg in Hd.
      assert (Hnn : 0 <= INR n * B) by (pose proof (pos_INR n); nra).
      apply Rle_trans with (mean om (num_samples c) (fun l1 => mean om (num_samples c) (fun l2 =>
        indicator (trial_rejects estimate reject (failure_probability c) g' (map h (map (m d1) l1)) (map h (map (m d2) l2))) + INR n * B))).
      + apply mean_le; [exact Hom|]. intros l1 E1. rewrite mean_app. apply mean_le; [exact Hom|]. intros l2 E2.
        set (p1 := map h (map (m d1) l1)). set (p2 := map h (map (m d2) l2)).
        assert (Ein : forall rest, loop (Datatypes.S n) trial last acc (g, l1 ++ l2 ++ rest) =
          let? (a, s1) := estimate p1 p2 (failure_probability c) g' in let? (b, s2) := estimate p2 p1 (failure_probability c) s1 in
          let e := if gtb b a then b else a in
          if reject e
          then Ok (mkResults (acc ++ [e]) FOUND_PRIVACY_VIOLATION (Some (failure_probability c)) (trial + 1), (s2, rest))
          else loop n (trial + 1) (Some e) (acc ++ [e]) (s2, rest)).
        { intros rest. cbn [runner_loop]. unfold tape_generator at 1. cbn [fst snd]. rewrite Eg. cbn [bind].
          rewrite (tape_step d1 l1 (l2 ++ rest) g' E1). cbn [bind]. rewrite (tape_step d2 l2 rest g' E2). cbn [bind].
          rewrite !Hpost. cbn [bind]. fold p1 p2. unfold tape_tester at 1. cbn [fst snd].
          destruct (estimate p1 p2 (failure_probability c) g') as [[a s1]|]; cbn [bind]; [|reflexivity].
          unfold tape_tester at 1. cbn [fst snd].
          destruct (estimate p2 p1 (failure_probability c) s1) as [[b s2]|]; cbn [bind]; reflexivity. }
        rewrite (mean_ext om _ _ (fun rest => indicator (reports_violation (
          let? (a, s1) := estimate p1 p2 (failure_probability c) g' in let? (b, s2) := estimate p2 p1 (failure_probability c) s1 in
          let e := if gtb b a then b else a in
          if reject e
          then Ok (mkResults (acc ++ [e]) FOUND_PRIVACY_VIOLATION (Some (failure_probability c)) (trial + 1), (s2, rest))
          else loop n (trial + 1) (Some e) (acc ++ [e]) (s2, rest))))) by (intros; rewrite Ein; reflexivity).
        assert (Hb : 0 <= indicator (trial_rejects estimate reject (failure_probability c) g' p1 p2)) by (destruct (trial_rejects _ _ _ _ _ _); cbn [indicator]; lra).
        destruct (estimate p1 p2 (failure_probability c) g') as [[a s1]|] eqn:Ea; cbn [bind].
        2:{ rewrite (mean_const om Hom). cbn [reports_violation indicator]. lra. }
        destruct (estimate p2 p1 (failure_probability c) s1) as [[b s2]|] eqn:Eb; cbn [bind].
        2:{ rewrite (mean_const om Hom). cbn [reports_violation indicator]. lra. }
        destruct (reject (if gtb b a then b else a)) eqn:Er.
        * cbn [reports_violation termination_reason indicator]. rewrite (mean_const om Hom).
          assert (Hbad : trial_rejects estimate reject (failure_probability c) g' p1 p2 = true).
          { unfold trial_rejects. rewrite Ea, Eb. destruct (gtb b a); rewrite Er; [apply orb_true_r|reflexivity]. }
          rewrite Hbad. cbn [indicator]. lra.
        * eapply Rle_trans; [apply IH|]. lra.
      + rewrite (mean_ext om _ _ (fun l1 => mean om (num_samples c) (fun l2 =>
           indicator (trial_rejects estimate reject (failure_probability c) g' (map h (map (m d1) l1)) (map h (map (m d2) l2)))) + INR n * B)).
        * rewrite mean_plus, mean_const by exact Hom. rewrite S_INR. lra.
        * intros l1 _ _. rewrite mean_plus, mean_const by exact Hom. reflexivity.
  Qed.
  Lemma audit_bound g :
    mean om (Z.to_nat (max_num_trials c) * (num_samples c + num_samples c)) (fun tape =>
      indicator (reports_violation (test_privacy (tape_generator gen) (tape_mechanism m) (tape_tester estimate) reject gtb np_tanh chebyshev c (g, tape))))
    <= IZR (Z.max 0 (max_num_trials c)) * B.
  Proof.
    replace (IZR (Z.max 0 (max_num_trials c))) with (INR (Z.to_nat (max_num_trials c))); [apply loop_violation|].
    rewrite INR_IZR_INZ. f_equal. lia.
  Qed.
End Audit.

Lemma post_map {A} np_tanh chebyshev c (h : A -> A) :
  (runner_post c = NONE /\ (forall a, h a = a)) \/ (runner_post c = TANH /\ forall s, np_tanh s = Ok (map h s)) ->
  forall s, postprocess np_tanh chebyshev (runner_post c) s = Ok (map h s).
Proof.
  intros [[E Hh]|[E Hh]] s; rewrite E; cbn [postprocess]; [|apply Hh]. rewrite (map_ext h (fun a => a) Hh), map_id. reflexivity.
Qed.

Lemma dp_pair_expect {O A} (om : list (O * R)) (m1 m2 : O -> A) h eps delta : dp_pair om m1 m2 eps delta -> forall S : A -> bool,
  expect om (fun o => indicator (S (h (m1 o)))) <= exp eps * expect om (fun o => indicator (S (h (m2 o)))) + delta.
Proof.
  intros H S. specialize (H (fun a => S (h a))). unfold expect.
  rewrite (rsum_ext _ (fun o => if S (h (m1 (fst o))) then snd o else 0) om) by (intros o _; destruct (S (h (m1 (fst o)))); cbn [indicator]; ring).
  rewrite (rsum_ext (fun o => snd o * indicator (S (h (m2 (fst o))))) (fun o => if S (h (m2 (fst o))) then snd o else 0) om) by (intros o _; destruct (S (h (m2 (fst o)))); cbn [indicator]; ring).
  exact H.
Qed.

Lemma hockey_audit {S D O A} (om : list (O * R)) (m : D -> O -> A) (gen : option xr -> S -> D * D * S)
    (keras : list (A * bool) -> S -> res ((A -> R) * S)) np_tanh chebyshev h hc t eps delta c g :
  new_hockey hc = Ok t -> a_epsilon (hc_approximate hc) = Some eps -> a_delta (hc_approximate hc) = Some delta -> distribution om ->
  (runner_post c = NONE /\ (forall a, h a = a)) \/ (runner_post c = TANH /\ forall s, np_tanh s = Ok (map h s)) ->
  (forall last g, let '(d1, d2, _) := gen last g in dp_pair om (m d1) (m d2) eps delta /\ dp_pair om (m d2) (m d1) eps delta) ->
  0 < failure_probability c ->
  mean om (Z.to_nat (max_num_trials c) * (num_samples c + num_samples c)) (fun tape =>
    indicator (reports_violation
      (test_privacy (tape_generator gen) (tape_mechanism m) (tape_tester (hockey_estimate keras t))
         (hockey_reject t) (fun a b => xltb b a) np_tanh chebyshev c (g, tape))))
  <= IZR (Z.max 0 (max_num_trials c))
     * (2 * failure_probability c * exp (4 * sqrt (ln (1 / failure_probability c) / 2 / INR (num_samples c - num_samples c / 2)))).
Proof.
  intros Hc Ee Ed Hom Hp Hdp Hf. apply new_hockey_inv in Hc. destruct Hc as (Ee' & Ed' & _ & _ & Hb).
  rewrite Ee in Ee'. injection Ee' as ->. rewrite Ed in Ed'. injection Ed' as ->.
  set (B := failure_probability c * exp (4 * hs_error (failure_probability c) (num_samples c - num_samples c / 2))).
  assert (HB : 0 <= B) by (apply Rmult_le_pos; [lra|apply Rlt_le, exp_pos]).
  replace (2 * failure_probability c * exp (4 * sqrt (ln (1 / failure_probability c) / 2 / INR (num_samples c - num_samples c / 2)))) with (B + B)
    by (unfold B, hs_error; ring).
  apply (audit_bound om m gen (hockey_estimate keras t) (hockey_reject t) _ np_tanh chebyshev h c (B + B) Hom (post_map _ _ _ _ Hp)); [lra|].
  intros last s0 s. pose proof (Hdp last s0) as H. destruct (gen last s0) as [[d1 d2] s0']. destruct H as [H12 H21].
  rewrite (mean_ext om _ _ (fun l1 => mean om (num_samples c) (fun l2 =>
    indicator (both (hockey_fit keras t) (hockey_compute t) (hockey_reject t) (failure_probability c) s (map (fun o => h (m d1 o)) l1) (map (fun o => h (m d2 o)) l2))))).
  2:{ intros l1 _ _. apply mean_ext. intros l2 _ _. rewrite !map_map. reflexivity. }
  apply (trained_both om om (fun o => h (m d1 o)) (fun o => h (m d2 o)) (hockey_fit keras t) (hockey_compute t) (hockey_reject t) Hom Hom); try exact HB.
  - intros f. apply (hockey_test om om (fun o => h (m d1 o)) (fun o => h (m d2 o)) t Hom Hom (dp_pair_expect om _ _ h _ _ H12) Hb); exact Hf.
  - intros f. rewrite mean_swap by exact Hom.
    apply (hockey_test om om (fun o => h (m d2 o)) (fun o => h (m d1 o)) t Hom Hom (dp_pair_expect om _ _ h _ _ H21) Hb); exact Hf.
Qed.

Lemma satisfies_swap p E : satisfies p E -> satisfies p (swap E).
Proof.
  intros (H1 & H2 & H3). assert (Es : swap (swap E) = E) by (destruct E; reflexivity).
  unfold satisfies, rdp_bounded. rewrite Es. split; [|split].
  - intros q e Hq He. destruct (H1 q e Hq He). split; assumption.
  - intros q a e Hq Hx He. destruct (H2 q a e Hq Hx He). split; assumption.
  - intros q e d Hq He Hd. destruct (H3 q e d Hq He Hd). split; assumption.
Qed.
Lemma valid_swap E : valid E -> valid (swap E).
Proof. intros (A & B & C). split; [intros o Ho; split; apply A; exact Ho|split; assumption]. Qed.

Lemma renyi_audit {S D O A} (om : list (O * R)) (m : D -> O -> A) (gen : option xr -> S -> D * D * S)
    (keras : list A -> list A -> S -> res ((A -> R) * S)) np_tanh chebyshev h rc t c g :
  new_renyi rc = Ok t -> 1 < rc_alpha rc -> distribution om ->
  (runner_post c = NONE /\ (forall a, h a = a)) \/ (runner_post c = TANH /\ forall s, np_tanh s = Ok (map h s)) ->
  (forall last g, let '(d1, d2, _) := gen last g in pair_satisfies om (rc_property rc) (m d1) (m d2)) ->
  0 < failure_probability c ->
  mean om (Z.to_nat (max_num_trials c) * (num_samples c + num_samples c)) (fun tape =>
    indicator (reports_violation
      (test_privacy (tape_generator gen) (tape_mechanism m) (tape_tester (renyi_estimate keras t))
         (renyi_reject t) (fun a b => xltb b a) np_tanh chebyshev c (g, tape))))
  <= IZR (Z.max 0 (max_num_trials c)) * (2 * failure_probability c).
Proof.
  intros Hc Ha Hom Hp Hdp Hf. set (B := failure_probability c).
  replace (2 * B) with (B + B) by ring.
  apply (audit_bound om m gen (renyi_estimate keras t) (renyi_reject t) _ np_tanh chebyshev h c (B + B) Hom (post_map _ _ _ _ Hp)); [unfold B; lra|].
  intros last s0 s. pose proof (Hdp last s0) as H. destruct (gen last s0) as [[d1 d2] s0']. destruct H as (outs & pP & pQ & V & HL & Hs).
  set (E := mkExper A outs pP pQ) in *.
  destruct (new_renyi_inv rc t E Hc Ha V Hs) as (Ha' & Hb & HR).
  destruct (new_renyi_inv rc t (swap E) Hc Ha (valid_swap E V) (satisfies_swap _ E Hs)) as (_ & _ & HR').
  rewrite (mean_ext om _ _ (fun l1 => mean om (num_samples c) (fun l2 =>
    indicator (both keras (renyi_compute t) (renyi_reject t) (failure_probability c) s (map (fun o => h (m d1 o)) l1) (map (fun o => h (m d2 o)) l2))))).
  2:{ intros l1 _ _. apply mean_ext. intros l2 _ _. rewrite !map_map. reflexivity. }
  apply (trained_both om om (fun o => h (m d1 o)) (fun o => h (m d2 o)) keras (renyi_compute t) (renyi_reject t) Hom Hom); try (unfold B; lra).
  - intros f. apply (renyi_test om om (fun o => h (m d1 o)) (fun o => h (m d2 o)) t Hom Hom Ha' Hb); [|exact Hf].
    intros f'. unfold expect. rewrite (proj1 (HL (fun a => exp ((rt_alpha t - 1) * f' (h a))))), (proj2 (HL (fun a => exp (rt_alpha t * f' (h a))))).
    apply (variational E _ _ (fun a => f' (h a)) V Ha' HR).
  - intros f. rewrite mean_swap by exact Hom. apply (renyi_test om om (fun o => h (m d2 o)) (fun o => h (m d1 o)) t Hom Hom Ha' Hb); [|exact Hf].
    intros f'. unfold expect. rewrite (proj2 (HL (fun a => exp ((rt_alpha t - 1) * f' (h a))))), (proj1 (HL (fun a => exp (rt_alpha t * f' (h a))))).
    apply (variational (swap E) _ _ (fun a => f' (h a)) (valid_swap E V) Ha' HR').
Qed.
