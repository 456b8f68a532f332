(** Final forms of the statements about audits, and examples. *)
From Verif Require Import Base Exn TypesAudit ModelAudit SpecDP SpecAudit ProofHoeffding ProofHist ProofAudit ProofAuditRun ProofHistEst.
Local Arguments Rltb : simpl never.
Local Arguments Rleb : simpl never.
Local Arguments Reqb : simpl never.

Lemma new_tester_inv c t : new_tester c = Ok t ->
  t_config t = c /\ h_epsilon c = Some (t_epsilon t) /\ h_delta c = Some (t_delta t) /\ 0 < t_epsilon t /\ 0 <= t_delta t.
Proof.
  unfold new_tester, validate_epsilon. destruct (h_epsilon c) as [e|]; cbn [bind]; [|discriminate].
  destruct (Reqb_spec e 0); cbn [bind]; [discriminate|]. destruct (Rleb_spec e 0); cbn [bind]; [discriminate|].
  destruct (h_delta c) as [d|]; [|discriminate]. destruct (Rltb_spec d 0); [discriminate|].
  intros E. injection E as <-. cbn [t_config t_epsilon t_delta]. repeat split; lra.
Qed.
Lemma new_tester_iff c : (exists t, new_tester c = Ok t) <->
  exists e d, h_epsilon c = Some e /\ h_delta c = Some d /\ 0 < e /\ 0 <= d.
Proof.
  split.
  - intros (t & H). apply new_tester_inv in H. exists (t_epsilon t), (t_delta t). tauto.
  - intros (e & d & E1 & E2 & He & Hd). exists (mkTester c e d). unfold new_tester, validate_epsilon.
    rewrite E1, E2. cbn [bind]. rewrite Reqb_false, Rleb_false by lra. cbn [bind]. rewrite Rltb_false by lra. reflexivity.
Qed.

Lemma tester_discrete {O} (om : list (O * R)) (m1 m2 : O -> Z) c t eps delta failure n1 n2 :
  new_tester c = Ok t -> h_epsilon c = Some eps -> h_delta c = Some delta -> distribution om ->
  (forall o, (0 <= m1 o < Z.of_nat (h_size c))%Z /\ (0 <= m2 o < Z.of_nat (h_size c))%Z) ->
  dp_pair om m1 m2 eps delta -> 0 < failure -> (0 < n1)%nat -> (0 < n2)%nat ->
  mean om n1 (fun l1 => mean om n2 (fun l2 =>
    indicator (rejects (reject_property t) (estimate_lower_bound estimate_discrete t (map m1 l1) (map m2 l2) failure)))) <= failure / 2.
Proof.
  intros Ht E1 E2 Hom Hr Hdp Hf Hn1 Hn2. apply new_tester_inv in Ht. destruct Ht as (Ec & F1 & F2 & _).
  rewrite F1 in E1. rewrite F2 in E2. injection E1 as <-. injection E2 as <-.
  apply (tester_level om m1 m2 estimate_discrete t (fun a => (0 <= a < Z.of_nat (h_size c))%Z) (fun a => a)); auto.
  - rewrite Ec. apply discrete_bins.
  - intros o. apply Hr.
  - intros o. apply Hr.
Qed.

Lemma continuous_wrong t (s1 s2 : list R) failure : ~ ((0 < h_size (t_config t))%nat /\ h_min (t_config t) <= h_max (t_config t)) ->
  estimate_lower_bound estimate_continuous t s1 s2 failure = Err ValueError.
Proof.
  intros H. unfold estimate_lower_bound, estimate_continuous at 1. destruct s1 as [|x s]; [reflexivity|].
  destruct (Nat.eqb_spec (h_size (t_config t)) 0) as [E|E]; [reflexivity|].
  destruct (Rltb_spec (h_max (t_config t)) (h_min (t_config t))) as [L|L]; [reflexivity|].
  exfalso. apply H. split; [lia|lra].
Qed.

Lemma tester_continuous {O} (om : list (O * R)) (m1 m2 : O -> R) c t eps delta failure n1 n2 :
  new_tester c = Ok t -> h_epsilon c = Some eps -> h_delta c = Some delta -> distribution om ->
  dp_pair om m1 m2 eps delta -> 0 < failure -> (0 < n1)%nat -> (0 < n2)%nat ->
  mean om n1 (fun l1 => mean om n2 (fun l2 =>
    indicator (rejects (reject_property t) (estimate_lower_bound estimate_continuous t (map m1 l1) (map m2 l2) failure)))) <= failure / 2.
Proof.
  intros Ht E1 E2 Hom Hdp Hf Hn1 Hn2. apply new_tester_inv in Ht. destruct Ht as (Ec & F1 & F2 & _).
  rewrite F1 in E1. rewrite F2 in E2. injection E1 as <-. injection E2 as <-.
  destruct (Nat.eq_dec (h_size (t_config t)) 0) as [K|K]; [|destruct (Rle_lt_dec (h_min (t_config t)) (h_max (t_config t))) as [M|M]].
  - rewrite (mean_ext om n1 _ (fun _ => 0)); [rewrite mean_const by exact Hom; lra|]. intros l1 _ _.
    rewrite (mean_ext om n2 _ (fun _ => 0)); [apply mean_const; exact Hom|]. intros l2 _ _.
    rewrite continuous_wrong by lia. reflexivity.
  - apply (tester_level om m1 m2 estimate_continuous t (fun _ => True) (continuous_bin (t_config t))); auto.
    apply continuous_bins; [lia|exact M].
  - rewrite (mean_ext om n1 _ (fun _ => 0)); [rewrite mean_const by exact Hom; lra|]. intros l1 _ _.
    rewrite (mean_ext om n2 _ (fun _ => 0)); [apply mean_const; exact Hom|]. intros l2 _ _.
    rewrite continuous_wrong by (intros [_ H]; lra). reflexivity.
Qed.

(** The whole audit. *)
Lemma post_map {A} (np_tanh chebyshev : list A -> res (list A)) (h : A -> A) p :
  (p = NONE /\ (forall a, h a = a)) \/ (p = TANH /\ forall s, np_tanh s = Ok (map h s)) ->
  forall s, postprocess np_tanh chebyshev p s = Ok (map h s).
Proof.
  intros [[-> H]|[-> H]] s; cbn [postprocess]; [|apply H].
  f_equal. rewrite <- (map_id s) at 1. apply map_ext. intros a. symmetry. apply H.
Qed.

Lemma audit_discrete {G D O} (om : list (O * R)) (m : D -> O -> Z) (gen : option (option R) -> G -> D * D * G) np_tanh chebyshev h
    hc t eps delta c g :
  new_tester hc = Ok t -> h_epsilon hc = Some eps -> h_delta hc = Some delta -> distribution om ->
  (runner_post c = NONE /\ (forall a, h a = a)) \/ (runner_post c = TANH /\ forall s, np_tanh s = Ok (map h s)) ->
  (forall d o, (0 <= h (m d o) < Z.of_nat (h_size hc))%Z) ->
  (forall last g, let '(d1, d2, _) := gen last g in dp_pair om (m d1) (m d2) eps delta /\ dp_pair om (m d2) (m d1) eps delta) ->
  0 < failure_probability c -> (0 < num_samples c)%nat ->
  mean om (Z.to_nat (max_num_trials c) * (num_samples c + num_samples c)) (fun tape =>
    indicator (reports_violation
      (test_privacy (tape_generator gen) (tape_mechanism m)
         (fun s1 s2 f w => let? v := estimate_lower_bound estimate_discrete t s1 s2 f in Ok (v, w))
         (reject_property t) float_gtb np_tanh chebyshev c (g, tape))))
  <= IZR (Z.max 0 (max_num_trials c)) * (failure_probability c / 2).
Proof.
  intros Ht E1 E2 Hom Hp Hr Hdp Hf Hn. apply new_tester_inv in Ht. destruct Ht as (Ec & F1 & F2 & _).
  rewrite F1 in E1. rewrite F2 in E2. injection E1 as <-. injection E2 as <-.
  apply (audit_violation om m gen estimate_discrete t (fun a => (0 <= a < Z.of_nat (h_size hc))%Z) (fun a => a) np_tanh chebyshev h c g); auto.
  - rewrite Ec. apply discrete_bins.
  - apply post_map, Hp.
Qed.

Lemma audit_continuous {G D O} (om : list (O * R)) (m : D -> O -> R) (gen : option (option R) -> G -> D * D * G) np_tanh chebyshev h
    hc t eps delta c g :
  new_tester hc = Ok t -> h_epsilon hc = Some eps -> h_delta hc = Some delta -> distribution om ->
  (runner_post c = NONE /\ (forall a, h a = a)) \/ (runner_post c = TANH /\ forall s, np_tanh s = Ok (map h s)) ->
  (0 < h_size hc)%nat -> h_min hc <= h_max hc ->
  (forall last g, let '(d1, d2, _) := gen last g in dp_pair om (m d1) (m d2) eps delta /\ dp_pair om (m d2) (m d1) eps delta) ->
  0 < failure_probability c -> (0 < num_samples c)%nat ->
  mean om (Z.to_nat (max_num_trials c) * (num_samples c + num_samples c)) (fun tape =>
    indicator (reports_violation
      (test_privacy (tape_generator gen) (tape_mechanism m)
         (fun s1 s2 f w => let? v := estimate_lower_bound estimate_continuous t s1 s2 f in Ok (v, w))
         (reject_property t) float_gtb np_tanh chebyshev c (g, tape))))
  <= IZR (Z.max 0 (max_num_trials c)) * (failure_probability c / 2).
Proof.
  intros Ht E1 E2 Hom Hp Hk Hm Hdp Hf Hn. apply new_tester_inv in Ht. destruct Ht as (Ec & F1 & F2 & _).
  rewrite F1 in E1. rewrite F2 in E2. injection E1 as <-. injection E2 as <-.
  apply (audit_violation om m gen estimate_continuous t (fun _ => True) (continuous_bin hc) np_tanh chebyshev h c g); auto.
  - rewrite Ec. apply continuous_bins; assumption.
  - apply post_map, Hp.
Qed.

(** * Examples *)
(** Randomized response on a bit, reporting the truth with probability 3/4. *)
Definition coin : list (bool * R) := [(true, 3/4); (false, 1/4)].
Definition response (d : Z) (o : bool) : Z := if o then d mod 2 else 1 - d mod 2.
Lemma coin_ok : distribution coin.
Proof.
  split; [|cbn [coin rsum snd]; lra]. intros o [ <- |[ <- |[]]]; cbn [snd]; lra.
Qed.
Lemma response_range d o : (0 <= response d o < 2)%Z.
Proof. unfold response. pose proof (Z.mod_pos_bound d 2 ltac:(lia)). destruct o; lia. Qed.
Lemma response_dp d d' : dp_pair coin (response d) (response d') (ln 3) 0.
Proof.
  intros S. rewrite exp_ln by lra. cbn [coin rsum fst snd response].
  pose proof (Z.mod_pos_bound d 2 ltac:(lia)). pose proof (Z.mod_pos_bound d' 2 ltac:(lia)).
  assert (E : (d mod 2 = 0 \/ d mod 2 = 1)%Z) by lia. assert (E' : (d' mod 2 = 0 \/ d' mod 2 = 1)%Z) by lia.
  destruct E as [->| ->], E' as [->| ->]; cbn [Z.sub Z.add Z.opp Z.pos_sub];
    change (1 - 0)%Z with 1%Z; change (1 - 1)%Z with 0%Z; destruct (S 0%Z), (S 1%Z); lra.
Qed.
Definition rr_config := mkHist 2 0 1 (Some (ln 3)) (Some 0) false.
Definition rr_tester := mkTester rr_config (ln 3) 0.
Lemma ln3_pos : 0 < ln 3.
Proof. rewrite <- ln_1. apply ln_increasing; lra. Qed.
Lemma rr_new : new_tester rr_config = Ok rr_tester.
Proof.
  unfold new_tester, validate_epsilon, rr_config. cbn [h_epsilon h_delta]. pose proof ln3_pos.
  rewrite Reqb_false, Rleb_false by lra. cbn [bind]. rewrite Rltb_false by lra. reflexivity.
Qed.
(** One test, and an audit of at most five trials with datasets that alternate. *)
Lemma rr_test_example : mean coin 100 (fun l1 => mean coin 50 (fun l2 =>
    indicator (rejects (reject_property rr_tester) (estimate_lower_bound estimate_discrete rr_tester (map (response 0) l1) (map (response 1) l2) (1/10))))) <= / 20.
Proof.
  eapply Rle_trans; [apply (tester_discrete coin (response 0) (response 1) rr_config rr_tester (ln 3) 0 (1/10) 100 50 rr_new eq_refl eq_refl coin_ok)|].
  - intros o. cbn [rr_config h_size]. split; apply response_range.
  - apply response_dp.
  - lra.
  - lia.
  - lia.
  - lra.
Qed.
Definition alternate (last : option (option R)) (g : Z) : Z * Z * Z := (g, g + 1, g + 1)%Z.
Lemma rr_audit_example : mean coin (5 * (100 + 100)) (fun tape =>
    indicator (reports_violation
      (test_privacy (tape_generator alternate) (tape_mechanism response)
         (fun s1 s2 f w => let? v := estimate_lower_bound estimate_discrete rr_tester s1 s2 f in Ok (v, w))
         (reject_property rr_tester) float_gtb (fun s => Ok s) (fun s => Ok s) (mkRunner 5 (1/10) 100 NONE) (0%Z, tape))))
  <= / 4.
Proof.
  eapply Rle_trans; [apply (audit_discrete coin response alternate (fun s => Ok s) (fun s => Ok s) (fun a => a) rr_config rr_tester (ln 3) 0
    (mkRunner 5 (1/10) 100 NONE) 0%Z rr_new eq_refl eq_refl coin_ok)|].
  - left. split; reflexivity.
  - intros d o. cbn [rr_config h_size]. apply response_range.
  - intros last g. cbn [alternate]. split; apply response_dp.
  - cbn [failure_probability]. lra.
  - cbn [num_samples]. lia.
  - cbn [max_num_trials failure_probability]. change (Z.max 0 5) with 5%Z. lra.
Qed.
(** The same response as a real number, shifted by 1/2, with the continuous tester. *)
Definition response_real (d : Z) (o : bool) : R := IZR (response d o) + 1/2.
Lemma response_real_dp d d' : dp_pair coin (response_real d) (response_real d') (ln 3) 0.
Proof. intros S. exact (response_dp d d' (fun z => S (IZR z + 1/2))). Qed.
Lemma rr_audit_real : mean coin (5 * (100 + 100)) (fun tape =>
    indicator (reports_violation
      (test_privacy (tape_generator alternate) (tape_mechanism response_real)
         (fun s1 s2 f w => let? v := estimate_lower_bound estimate_continuous rr_tester s1 s2 f in Ok (v, w))
         (reject_property rr_tester) float_gtb (fun s => Ok s) (fun s => Ok s) (mkRunner 5 (1/10) 100 NONE) (0%Z, tape))))
  <= / 4.
Proof.
  eapply Rle_trans; [apply (audit_continuous coin response_real alternate (fun s => Ok s) (fun s => Ok s) (fun a => a) rr_config rr_tester (ln 3) 0
    (mkRunner 5 (1/10) 100 NONE) 0%Z rr_new eq_refl eq_refl coin_ok)|].
  - left. split; reflexivity.
  - cbn [rr_config h_size]. lia.
  - cbn [rr_config h_min h_max]. lra.
  - intros last g. cbn [alternate]. split; apply response_real_dp.
  - cbn [failure_probability]. lra.
  - cbn [num_samples]. lia.
  - cbn [max_num_trials failure_probability]. change (Z.max 0 5) with 5%Z. lra.
Qed.
(** A tester that estimates, on samples that differ. *)
Lemma estimate_example : exists v, estimate_lower_bound estimate_discrete rr_tester [0; 0; 1]%Z [1; 1; 1]%Z (1/10) = Ok (Some v).
Proof.
  eexists. unfold estimate_lower_bound, estimate_discrete. cbn [rr_tester t_config rr_config h_size existsb List.length].
  cbn [Z.of_nat Pos.of_succ_nat Pos.succ]. cbn [Z.leb Z.ltb Z.compare Pos.compare Pos.compare_cont orb bind].
  unfold error_tolerance. rewrite Reqb_false by lra. cbn [bind].
  unfold np_log. rewrite Rleb_false by lra. unfold np_sqrt.
  assert (H : 0 < ln (4 / (1 / 10))) by (rewrite <- ln_1; apply ln_increasing; lra).
  rewrite Rltb_false; [reflexivity|]. apply Rmult_le_pos; [lra|]. apply Rlt_le, Rinv_0_lt_compat.
  cbn [Nat.min INR]. lra.
Qed.
(** Two trials of the runner, the second of which rejects. *)
Definition count_generator (last : option R) (w : nat) : res (nat * nat * nat) := Ok (w, S w, S w).
Lemma runner_example :
  test_privacy (D := nat) (Sm := nat) (V := R) (W := nat) count_generator (fun d n w => Ok (d, w))
    (fun s1 s2 f w => Ok (INR s1, w)) (fun v => Rleb 2 v) (fun a b => Rltb b a) (fun s => Ok s) (fun s => Ok s)
    (mkRunner 5 (1/10) 7 NONE) 0%nat
  = Ok (mkResults [1; 1 + 1] FOUND_PRIVACY_VIOLATION (Some (1/10)) 2, 2%nat).
Proof.
  unfold test_privacy. cbn [max_num_trials]. change (Z.to_nat 5) with 5%nat.
  cbn [runner_loop count_generator bind num_samples runner_post postprocess failure_probability INR].
  rewrite (Rltb_true 0 1) by lra. rewrite (Rleb_false 2 1) by lra. cbn [app bind].
  rewrite (Rltb_true 1 (1 + 1)) by lra. rewrite (Rleb_true 2 (1 + 1)) by lra. reflexivity.
Qed.

Lemma runner_final {D Sm V W : Type} (generator : option V -> W -> res (D * D * W))
    (mechanism : D -> nat -> W -> res (Sm * W)) (estimate : Sm -> Sm -> R -> W -> res (V * W))
    (reject : V -> bool) (gtb : V -> V -> bool) (np_tanh chebyshev : Sm -> res Sm) c w r w' :
  test_privacy generator mechanism estimate reject gtb np_tanh chebyshev c w = Ok (r, w') <->
  exists es,
    trials generator mechanism (match runner_post c with NONE => fun s => Ok s | TANH => np_tanh | CHEBYSHEV_POLYNOMIALS_D5 => chebyshev end)
      estimate gtb (failure_probability c) (num_samples c) None w es w'
    /\ estimates r = es /\
    ((exists front e, es = front ++ [e] /\ (Z.of_nat (List.length es) <= max_num_trials c)%Z
        /\ Forall (fun e => reject e = false) front /\ reject e = true
        /\ termination_reason r = FOUND_PRIVACY_VIOLATION /\ found r = Some (failure_probability c)
        /\ num_inspected_trials r = Z.of_nat (List.length es))
     \/ (Z.of_nat (List.length es) = Z.max 0 (max_num_trials c) /\ Forall (fun e => reject e = false) es
        /\ termination_reason r = TRIAL_LIMIT_REACHED /\ found r = None /\ num_inspected_trials r = max_num_trials c)).
Proof.
  rewrite runner_spec.
  assert (E : (match runner_post c with NONE => fun s => Ok s | TANH => np_tanh | CHEBYSHEV_POLYNOMIALS_D5 => chebyshev end)
    = postprocess np_tanh chebyshev (runner_post c)) by (destruct (runner_post c); reflexivity).
  rewrite E. reflexivity.
Qed.
Lemma continuous_no_reject_all t s1 s2 failure :
  (forall S, empirical s1 S <= exp (t_epsilon t) * empirical s2 S + t_delta t) ->
  rejects (reject_property t) (estimate_lower_bound estimate_continuous t s1 s2 failure) = false.
Proof.
  intros H. destruct (Nat.eq_dec (h_size (t_config t)) 0) as [K|K]; [|destruct (Rle_lt_dec (h_min (t_config t)) (h_max (t_config t))) as [M|M]].
  - rewrite continuous_wrong by lia. reflexivity.
  - destruct (bins_exist (t_config t) ltac:(lia) M) as (b & Hb).
    apply (continuous_no_reject t s1 s2 failure b Hb). intros S. apply (H (fun x => S (b x))).
  - rewrite continuous_wrong by (intros [_ ?]; lra). reflexivity.
Qed.
Lemma no_reject_example : forall S, empirical [0; 1]%Z S <= exp (t_epsilon rr_tester) * empirical [0; 0; 1]%Z S + t_delta rr_tester.
Proof.
  intros S. cbn [rr_tester t_epsilon t_delta]. rewrite exp_ln by lra. unfold empirical. cbn [filter].
  destruct (S 0%Z), (S 1%Z); cbn [List.length INR]; lra.
Qed.
Lemma continuous_example : new_tester rr_config = Ok rr_tester /\ distribution coin
  /\ dp_pair coin (fun o => IZR (response 0 o)) (fun o => IZR (response 1 o)) (ln 3) 0.
Proof.
  split; [exact rr_new|]. split; [exact coin_ok|]. intros S. apply (response_dp 0 1 (fun z => S (IZR z))).
Qed.
