(** The privacy test runner and the histogram tester. *)
From Verif Require Import Base Exn TypesAudit ModelAudit SpecDP SpecAudit ProofHoeffding ProofHist.
Local Arguments Rltb : simpl never.
Local Arguments Rleb : simpl never.
Local Arguments Reqb : simpl never.

(** * The loop of the runner *)
Section RunnerLoop.
  Context {D Sm V W : Type}.
  Context (generator : option V -> W -> res (D * D * W)) (mechanism : D -> nat -> W -> res (Sm * W))
          (estimate : Sm -> Sm -> R -> W -> res (V * W)) (reject : V -> bool) (gtb : V -> V -> bool)
          (np_tanh chebyshev : Sm -> res Sm) (c : runner_config).
  Local Notation trials := (trials generator mechanism (postprocess np_tanh chebyshev (runner_post c)) estimate gtb (failure_probability c) (num_samples c)).
  Local Notation one_trial := (one_trial generator mechanism (postprocess np_tanh chebyshev (runner_post c)) estimate gtb (failure_probability c) (num_samples c)).
  Local Notation loop := (runner_loop generator mechanism estimate reject gtb np_tanh chebyshev c).

  Definition outcome_of (n : nat) (trial : Z) (acc es : list V) (r : results V) : Prop :=
    estimates r = acc ++ es /\
    ((exists front e, es = front ++ [e] /\ (List.length es <= n)%nat /\ Forall (fun e => reject e = false) front /\ reject e = true
        /\ termination_reason r = FOUND_PRIVACY_VIOLATION /\ found r = Some (failure_probability c)
        /\ num_inspected_trials r = (trial + Z.of_nat (List.length es))%Z)
     \/ (List.length es = n /\ Forall (fun e => reject e = false) es
        /\ termination_reason r = TRIAL_LIMIT_REACHED /\ found r = None /\ num_inspected_trials r = max_num_trials c)).

  (** A trial of the loop. *)
  Lemma loop_step n trial last acc w r w' : loop (S n) trial last acc w = Ok (r, w') <->
    exists e w1, one_trial last w e w1 /\
      (if reject e then r = mkResults (acc ++ [e]) FOUND_PRIVACY_VIOLATION (Some (failure_probability c)) (trial + 1) /\ w' = w1
       else loop n (trial + 1) (Some e) (acc ++ [e]) w1 = Ok (r, w')).
  Proof.
    cbn [runner_loop]. split.
    - intros H.
      apply bind_Ok in H. destruct H as ([[d1 d2] w1] & E1 & H).
      apply bind_Ok in H. destruct H as ([s1 w2] & E2 & H).
      apply bind_Ok in H. destruct H as ([s2 w3] & E3 & H).
      apply bind_Ok in H. destruct H as (p1 & E4 & H).
      apply bind_Ok in H. destruct H as (p2 & E5 & H).
      apply bind_Ok in H. destruct H as ([e12 w4] & E6 & H).
      apply bind_Ok in H. destruct H as ([e21 w5] & E7 & H).
      exists (if gtb e21 e12 then e21 else e12), w5. split; [econstructor; eassumption|].
      destruct (reject _); [|exact H]. injection H as <- <-. split; reflexivity.
    - intros (e & w1 & T & H). destruct T as [d1 d2 w2 s1 w3 s2 w4 p1 p2 e12 w5 e21 w6 E1 E2 E3 E4 E5 E6 E7].
      rewrite E1; cbn [bind]. rewrite E2; cbn [bind]. rewrite E3; cbn [bind]. rewrite E4; cbn [bind].
      rewrite E5; cbn [bind]. rewrite E6; cbn [bind]. rewrite E7; cbn [bind].
      destruct (reject _); [|exact H]. destruct H as [ -> -> ]. reflexivity.
  Qed.

  Lemma loop_spec n : forall trial last acc w r w',
    loop n trial last acc w = Ok (r, w') <-> exists es, trials last w es w' /\ outcome_of n trial acc es r.
  Proof.
    induction n as [|n IH]; intros trial last acc w r w'.
    - cbn [runner_loop]. split.
      + intros H. injection H as <- <-. exists []. split; [constructor|]. split; [rewrite app_nil_r; reflexivity|].
        right. repeat split; constructor.
      + intros (es & T & E & [(front & e & -> & L & _)|(L & _ & H1 & H2 & H3)]).
        { rewrite app_length in L; cbn [List.length] in L; lia. }
        destruct es; [|discriminate]. inversion T; subst. rewrite app_nil_r in E.
        destruct r as [x1 x2 x3 x4]; cbn [estimates termination_reason found num_inspected_trials] in *; subst; reflexivity.
    - rewrite loop_step. split.
      + intros (e & w1 & T & H). destruct (reject e) eqn:Er.
        * destruct H as [ -> -> ]. exists [e]. split; [econstructor; [exact T|constructor]|].
          split; [reflexivity|]. left. exists [], e. cbn [app List.length estimates termination_reason found num_inspected_trials].
          repeat split; try lia; try assumption. constructor.
        * apply IH in H. destruct H as (es & Ts & E & H). exists (e :: es). split; [econstructor; eassumption|].
          split; [rewrite E, <- app_assoc; reflexivity|].
          destruct H as [(front & e' & -> & L & Hf & Hr & H1 & H2 & H3)|(L & Hf & H1 & H2 & H3)].
          -- left. exists (e :: front), e'. cbn [app List.length] in *.
             split; [reflexivity|]. split; [lia|]. split; [constructor; assumption|]. split; [exact Hr|].
             split; [exact H1|]. split; [exact H2|]. rewrite H3. lia.
          -- right. cbn [List.length]. repeat split; try lia; try assumption. constructor; assumption.
      + intros (es & T & E & H). inversion T as [|last' w0 e w1 es' w2 Te Ts]; subst.
        { destruct H as [(front & e & Hc & _)|(L & _)]; [destruct front; discriminate|discriminate]. }
        exists e, w1. split; [exact Te|].
        destruct H as [(front & e' & Ef & L & Hf & Hr & H1 & H2 & H3)|(L & Hf & H1 & H2 & H3)].
        * destruct front as [|f front]; cbn [app] in Ef; injection Ef as -> ->.
          -- rewrite Hr. inversion Ts; subst. split; [|reflexivity].
             destruct r as [x1 x2 x3 x4]; cbn [estimates termination_reason found num_inspected_trials List.length] in *; subst. f_equal.
          -- inversion Hf as [|? ? Hf1 Hf2]; subst. rewrite Hf1. apply IH. exists (front ++ [e']). split; [exact Ts|].
             split; [rewrite E, <- app_assoc; reflexivity|]. left. exists front, e'.
             cbn [List.length] in *. repeat split; try assumption; try lia.
        * inversion Hf as [|? ? Hf1 Hf2]; subst. rewrite Hf1. apply IH. exists es'. split; [exact Ts|].
          split; [rewrite E, <- app_assoc; reflexivity|]. right. cbn [List.length] in L. repeat split; try assumption; lia.
  Qed.

  Lemma runner_spec w r w' :
    test_privacy generator mechanism estimate reject gtb np_tanh chebyshev c w = Ok (r, w') <->
    exists es, trials None w es w' /\ estimates r = es /\
      ((exists front e, es = front ++ [e] /\ (Z.of_nat (List.length es) <= max_num_trials c)%Z
          /\ Forall (fun e => reject e = false) front /\ reject e = true
          /\ termination_reason r = FOUND_PRIVACY_VIOLATION /\ found r = Some (failure_probability c)
          /\ num_inspected_trials r = Z.of_nat (List.length es))
       \/ (Z.of_nat (List.length es) = Z.max 0 (max_num_trials c) /\ Forall (fun e => reject e = false) es
          /\ termination_reason r = TRIAL_LIMIT_REACHED /\ found r = None /\ num_inspected_trials r = max_num_trials c)).
  Proof.
    unfold test_privacy. rewrite loop_spec. unfold outcome_of. cbn [app].
    split; intros (es & T & E & [(front & e & Ef & L & H)|(L & H)]); exists es; (split; [exact T|]); (split; [exact E|]).
    - left. exists front, e. split; [exact Ef|]. split; [|rewrite Z.add_0_l in H; exact H].
      assert (1 <= List.length es)%nat by (rewrite Ef, app_length; cbn [List.length]; lia). lia.
    - right. split; [lia|exact H].
    - left. exists front, e. split; [exact Ef|]. split; [lia|]. rewrite Z.add_0_l. exact H.
    - right. split; [lia|exact H].
  Qed.
End RunnerLoop.

Lemma filter_map_length {A B} (S : B -> bool) (g : A -> B) l :
  List.length (filter S (map g l)) = List.length (filter (fun a => S (g a)) l).
Proof. induction l as [|a l IH]; cbn [map filter]; [reflexivity|]. destruct (S (g a)); cbn [List.length]; rewrite IH; reflexivity. Qed.

(** * The histogram tester *)
(** The samples of a histogram fall in one bin each. *)
Lemma pick (q : nat -> R) k j : (j < k)%nat -> rsum (fun i => if (j =? i)%nat then q i else 0) (seq 0 k) = q j.
Proof.
  intros Hj.
  assert (Hs : forall k s, rsum (fun i => if (j =? i)%nat then q i else 0) (seq s k) = if ((s <=? j) && (j <? s + k))%nat%bool then q j else 0).
  { clear. induction k as [|k IH]; intros s; cbn [seq rsum].
    - destruct (Nat.leb_spec s j), (Nat.ltb_spec j (s + 0)); cbn [andb]; try lia; reflexivity.
    - rewrite IH. destruct (Nat.eqb_spec j s), (Nat.leb_spec (S s) j), (Nat.leb_spec s j), (Nat.ltb_spec j (S s + k)), (Nat.ltb_spec j (s + S k));
        cbn [andb]; try lia; subst; ring. }
  rewrite Hs. rewrite (proj2 (Nat.leb_le 0 j)), (proj2 (Nat.ltb_lt j (0 + k))) by lia. reflexivity.
Qed.

Lemma pick_bin (q : nat -> R) k z : (0 <= z < Z.of_nat k)%Z ->
  rsum (fun i => if (z =? Z.of_nat i)%Z then q i else 0) (seq 0 k) = q (Z.to_nat z).
Proof.
  intros Hz. rewrite (rsum_ext _ (fun i => if (Z.to_nat z =? i)%nat then q i else 0)).
  - apply pick. lia.
  - intros i _. destruct (Z.eqb_spec z (Z.of_nat i)), (Nat.eqb_spec (Z.to_nat z) i); try lia; reflexivity.
Qed.

Section Bins.
  Context {O : Type} (om : list (O * R)) (b : O -> Z) (k : nat).
  Hypothesis Hom : distribution om.
  Hypothesis Hb : forall o, (0 <= b o < Z.of_nat k)%Z.
  Lemma cnt_weighted (q : nat -> R) l : rsum (fun i => q i * cnt b i l) (seq 0 k) = rsum (fun o => q (Z.to_nat (b o))) l.
  Proof.
    induction l as [|o l IH]; cbn [rsum].
    - apply rsum_zero. intros i _. unfold cnt. cbn [filter List.length INR]. ring.
    - rewrite <- IH, <- (pick_bin q k (b o) (Hb o)), <- rsum_plus. apply rsum_ext. intros i _.
      rewrite cnt_cons. unfold hit, indicator. destruct (b o =? Z.of_nat i)%Z; ring.
  Qed.
  Lemma cnt_total l : rsum (fun i => cnt b i l) (seq 0 k) = INR (List.length l).
  Proof.
    rewrite (rsum_ext _ (fun i => 1 * cnt b i l)) by (intros; ring). rewrite (cnt_weighted (fun _ => 1)).
    rewrite rsum_const. ring.
  Qed.
  Lemma prob_weighted (q : nat -> R) : rsum (fun i => q i * prob om b i) (seq 0 k) = rsum (fun o => snd o * q (Z.to_nat (b (fst o)))) om.
  Proof.
    unfold prob. rewrite (rsum_ext _ (fun i => rsum (fun o => if hit b i (fst o) then q i * snd o else 0) om)).
    - rewrite rsum_swap. apply rsum_ext. intros o _. unfold hit.
      rewrite (pick_bin (fun i => q i * snd o) k (b (fst o)) (Hb (fst o))). ring.
    - intros i _. rewrite <- rsum_scal. apply rsum_ext. intros o _. destruct (hit b i (fst o)); ring.
  Qed.
  Lemma prob_total : rsum (prob om b) (seq 0 k) = 1.
  Proof.
    rewrite (rsum_ext _ (fun i => 1 * prob om b i)) by (intros; ring). rewrite (prob_weighted (fun _ => 1)).
    rewrite (rsum_ext _ snd) by (intros; ring). apply Hom.
  Qed.
End Bins.

Lemma combine_map {A B C} (f : A -> B) (g : A -> C) l : combine (map f l) (map g l) = map (fun a => (f a, g a)) l.
Proof. induction l as [|a l IH]; cbn [map combine]; [reflexivity|]. f_equal; exact IH. Qed.

Lemma rsum_positive {A} (f : A -> R) l : rsum (fun x => x) (filter (fun x => Rltb 0 x) (map f l)) = rsum (fun a => pos (f a)) l.
Proof.
  induction l as [|a l IH]; cbn [map filter rsum]; [reflexivity|].
  unfold pos at 1. destruct (Rltb_spec 0 (f a)); cbn [rsum].
  - rewrite IH, Rmax_right by lra. reflexivity.
  - rewrite IH, Rmax_left by lra. ring.
Qed.

(** The estimate, as a function of the bins. *)
Lemma point_estimate_bins {A} t (bin : A -> Z) k s1 s2 :
  point_estimate t (frequencies bin k s1) (frequencies bin k s2)
  = rsum (fun i => pos (INR (List.length (filter (fun a => (bin a =? Z.of_nat i)%Z) s1)) / INR (List.length s1)
      - exp (t_epsilon t) * (INR (List.length (filter (fun a => (bin a =? Z.of_nat i)%Z) s2)) / INR (List.length s2)))) (seq 0 k).
Proof.
  unfold point_estimate, frequencies, bin_counts. rewrite !map_map, combine_map, map_map. cbn [fst snd].
  apply rsum_positive.
Qed.

Lemma half_abs {A} (x : A -> R) l : rsum x l = 0 -> rsum (fun i => pos (x i)) l = / 2 * rsum (fun i => Rabs (x i)) l.
Proof.
  intros H. rewrite <- rsum_scal.
  assert (E : rsum (fun i => pos (x i)) l = rsum (fun i => / 2 * Rabs (x i) + / 2 * x i) l).
  { apply rsum_ext. intros i _. unfold pos. destruct (Rle_lt_dec (x i) 0).
    - rewrite Rmax_left, Rabs_left1; lra.
    - rewrite Rmax_right, Rabs_pos_eq; lra. }
  rewrite E, rsum_plus, (rsum_scal (/ 2) x), H. ring.
Qed.

Lemma pos_split a b p q e : 0 <= e -> pos (a - e * b) <= pos (p - e * q) + pos (a - p) + e * pos (q - b).
Proof.
  intros He. unfold pos.
  pose proof (Rmax_l 0 (p - e * q)). pose proof (Rmax_r 0 (p - e * q)). pose proof (Rmax_l 0 (a - p)).
  pose proof (Rmax_r 0 (a - p)). pose proof (Rmax_l 0 (q - b)). pose proof (Rmax_r 0 (q - b)).
  apply Rmax_lub; nra.
Qed.

(** How far an empirical distribution can be from the true one on a good sample. *)
Definition good {O} (om : list (O * R)) (b : O -> Z) k L (l : list O) : Prop :=
  excess om b k (List.length l) l < 4 * sqrt (L * INR (List.length l)).

Section Deviation.
  Context {O : Type} (om : list (O * R)) (b : O -> Z) (k : nat) (l : list O) (L : R).
  Hypothesis Hom : distribution om.
  Hypothesis Hb : forall o, (0 <= b o < Z.of_nat k)%Z.
  Hypothesis Hl : (0 < List.length l)%nat.
  Hypothesis HL : 0 <= L.
  Local Notation N := (INR (List.length l)).
  Definition freq i := cnt b i l / N.

  Lemma N_pos : 0 < N. Proof. apply lt_0_INR. exact Hl. Qed.
  Lemma freq_total : rsum freq (seq 0 k) = 1.
  Proof.
    unfold freq, Rdiv. rewrite rsum_scal_r, cnt_total by exact Hb. pose proof N_pos. field. lra.
  Qed.
  Lemma freq_dev : rsum (fun i => pos (freq i - prob om b i)) (seq 0 k) = / 2 * rsum (fun i => Rabs (freq i - prob om b i)) (seq 0 k)
    /\ rsum (fun i => pos (prob om b i - freq i)) (seq 0 k) = / 2 * rsum (fun i => Rabs (freq i - prob om b i)) (seq 0 k).
  Proof.
    split.
    - apply half_abs. rewrite rsum_minus, freq_total, prob_total by assumption. ring.
    - rewrite half_abs by (rewrite rsum_minus, freq_total, prob_total by assumption; ring).
      f_equal. apply rsum_ext. intros. apply Rabs_minus_sym.
  Qed.
  Lemma good_dev n : good om b k L l -> (0 < n <= List.length l)%nat ->
    / 2 * rsum (fun i => Rabs (freq i - prob om b i)) (seq 0 k)
    < 2 / sqrt (INR n) * rsum (fun i => sqrt (freq i)) (seq 0 k) + 6 * sqrt (L / (2 * INR n)).
  Proof.
    unfold good, excess. intros Hg Hn. pose proof N_pos as HN.
    assert (Hn0 : 0 < INR n) by (apply lt_0_INR; lia). assert (HnN : INR n <= N) by (apply le_INR; lia).
    rewrite rsum_minus, rsum_scal in Hg.
    assert (Ea : rsum (fun i => Rabs (freq i - prob om b i)) (seq 0 k)
               = rsum (fun i => Rabs (cnt b i l - N * prob om b i)) (seq 0 k) / N).
    { unfold Rdiv. rewrite <- rsum_scal_r. apply rsum_ext. intros i _. unfold freq.
      replace (cnt b i l / N - prob om b i) with ((cnt b i l - N * prob om b i) * / N) by (field; lra).
      rewrite Rabs_mult, (Rabs_pos_eq (/ N)); [reflexivity|apply Rlt_le, Rinv_0_lt_compat; exact HN]. }
    assert (Es : rsum (fun i => sqrt (cnt b i l)) (seq 0 k) = N * (/ sqrt N * rsum (fun i => sqrt (freq i)) (seq 0 k))).
    { rewrite <- !rsum_scal. apply rsum_ext. intros i _. unfold freq.
      rewrite sqrt_div_alt by exact HN.
      assert (sqrt N <> 0) by (pose proof (sqrt_lt_R0 N HN); lra).
      rewrite <- (sqrt_sqrt N) at 1 by lra. field. assumption. }
    assert (El : sqrt (L * N) = N * sqrt (L / N)).
    { rewrite <- (sqrt_square N) at 2 by lra. rewrite <- sqrt_mult_alt by nra. f_equal. field. lra. }
    rewrite Es, El in Hg. rewrite Ea.
    set (T := rsum (fun i => sqrt (freq i)) (seq 0 k)) in *.
    assert (HT : 0 <= T) by (apply rsum_nonneg; intros; apply sqrt_pos).
    set (A := rsum (fun i => Rabs (cnt b i l - N * prob om b i)) (seq 0 k)) in *.
    assert (H1 : / 2 * (A / N) < / sqrt N * T + 4 * sqrt (L / N)).
    { apply Rmult_lt_reg_r with N; [exact HN|]. replace (/ 2 * (A / N) * N) with (/ 2 * A) by (field; lra). lra. }
    assert (H2 : / sqrt N <= / sqrt (INR n)).
    { apply Rinv_le_contravar; [apply sqrt_lt_R0; exact Hn0|apply sqrt_le_1_alt; exact HnN]. }
    assert (H3 : 4 * sqrt (L / N) <= 6 * sqrt (L / (2 * INR n))).
    { replace 4 with (sqrt (4 * 4)) by (apply sqrt_square; lra). replace 6 with (sqrt (6 * 6)) by (apply sqrt_square; lra).
      rewrite <- !sqrt_mult_alt by lra. apply sqrt_le_1_alt.
      replace (4 * 4 * (L / N)) with (16 * L * / N) by (field; lra).
      replace (6 * 6 * (L / (2 * INR n))) with (18 * L * / INR n) by (field; lra).
      assert (/ N <= / INR n) by (apply Rinv_le_contravar; assumption).
      assert (0 < / N) by (apply Rinv_0_lt_compat; exact HN). nra. }
    assert (0 < / sqrt (INR n)) by (apply Rinv_0_lt_compat, sqrt_lt_R0; exact Hn0).
    unfold Rdiv at 2. nra.
  Qed.
  (** Cauchy-Schwarz: the sum of square roots of frequencies. *)
  Lemma sqrt_sum : rsum (fun i => sqrt (freq i)) (seq 0 k) <= sqrt (INR k).
  Proof.
    destruct k as [|k'] eqn:Ek; [cbn [seq rsum]; apply sqrt_pos|]. rewrite <- Ek in *.
    assert (HK : 0 < INR k) by (apply lt_0_INR; lia).
    assert (Hk : 0 < sqrt (INR k)) by (apply sqrt_lt_R0; exact HK).
    assert (Hk2 : sqrt (INR k) * sqrt (INR k) = INR k) by (apply sqrt_sqrt; lra).
    apply Rle_trans with (rsum (fun i => freq i * (sqrt (INR k) / 2) + / (2 * sqrt (INR k))) (seq 0 k)).
    - apply rsum_le. intros i _. assert (Hf : 0 <= freq i).
      { unfold freq. apply Rmult_le_pos; [apply cnt_nonneg|apply Rlt_le, Rinv_0_lt_compat, N_pos]. }
      rewrite <- (sqrt_sqrt (freq i)) at 2 by exact Hf. set (x := sqrt (freq i)). set (s := sqrt (INR k)) in *.
      assert (0 <= (x * s - 1) * (x * s - 1) / (2 * s)).
      { apply Rmult_le_pos; [apply Rle_0_sqr|apply Rlt_le, Rinv_0_lt_compat; lra]. }
      replace ((x * s - 1) * (x * s - 1) / (2 * s)) with (x * x * (s / 2) + / (2 * s) - x) in H by (field; lra). lra.
    - rewrite rsum_plus, rsum_scal_r, freq_total, rsum_const, seq_length. rewrite <- Hk2 at 2. right. field. lra.
  Qed.
End Deviation.

(** Privacy seen through the bins. *)
Lemma dp_bins {O A} (om : list (O * R)) (m1 m2 : O -> A) (bin : A -> Z) k eps delta :
  (forall o, (0 <= bin (m1 o) < Z.of_nat k)%Z) -> (forall o, (0 <= bin (m2 o) < Z.of_nat k)%Z) ->
  dp_pair om m1 m2 eps delta ->
  rsum (fun i => pos (prob om (fun o => bin (m1 o)) i - exp eps * prob om (fun o => bin (m2 o)) i)) (seq 0 k) <= delta.
Proof.
  intros H1 H2 Hdp. set (P := prob om (fun o => bin (m1 o))). set (Q := prob om (fun o => bin (m2 o))).
  set (s := fun i => indicator (Rltb 0 (P i - exp eps * Q i))).
  specialize (Hdp (fun a => Rltb 0 (P (Z.to_nat (bin a)) - exp eps * Q (Z.to_nat (bin a))))).
  cbv beta in Hdp.
  rewrite (rsum_ext _ (fun i => s i * P i - exp eps * (s i * Q i))).
  - rewrite rsum_minus, rsum_scal. unfold P at 1, Q at 1.
    rewrite (prob_weighted om (fun o => bin (m1 o)) k H1 s), (prob_weighted om (fun o => bin (m2 o)) k H2 s).
    rewrite (rsum_ext (fun o => if Rltb 0 (P (Z.to_nat (bin (m1 (fst o)))) - exp eps * Q (Z.to_nat (bin (m1 (fst o))))) then snd o else 0)
      (fun o => snd o * s (Z.to_nat (bin (m1 (fst o)))))) in Hdp
      by (intros; unfold s, indicator; destruct (Rltb 0 _); ring).
    rewrite (rsum_ext (fun o => if Rltb 0 (P (Z.to_nat (bin (m2 (fst o)))) - exp eps * Q (Z.to_nat (bin (m2 (fst o))))) then snd o else 0)
      (fun o => snd o * s (Z.to_nat (bin (m2 (fst o)))))) in Hdp
      by (intros; unfold s, indicator; destruct (Rltb 0 _); ring).
    lra.
  - intros i _. unfold s, indicator, pos. destruct (Rltb_spec 0 (P i - exp eps * Q i)).
    + rewrite Rmax_right by lra. ring.
    + rewrite Rmax_left by lra. ring.
Qed.

(** A distribution estimator that counts the samples in bins. *)
Definition bins_with {A} (dist : hist_config -> list A -> res (list R)) (c : hist_config) (ok : A -> Prop) (bin : A -> Z) : Prop :=
  (forall a, ok a -> (0 <= bin a < Z.of_nat (h_size c))%Z) /\
  forall s, s <> [] -> (forall a, In a s -> ok a) -> dist c s = Ok (frequencies bin (h_size c) s).

Lemma discrete_bins c : bins_with estimate_discrete c (fun a => (0 <= a < Z.of_nat (h_size c))%Z) (fun a => a).
Proof.
  split; [auto|]. intros s Hs Hin. unfold estimate_discrete. destruct s as [|x s]; [congruence|].
  rewrite (proj2 (Bool.orb_false_iff _ _)); [reflexivity|]. split.
  - apply Bool.not_true_is_false. intros H. apply existsb_exists in H. destruct H as (a & Ha & H).
    apply Z.leb_le in H. specialize (Hin a Ha). lia.
  - apply Bool.not_true_is_false. intros H. apply existsb_exists in H. destruct H as (a & Ha & H).
    apply Z.ltb_lt in H. specialize (Hin a Ha). lia.
Qed.

Definition bin_range (c : hist_config) : R * R :=
  if Reqb (h_min c) (h_max c) then (h_min c - /2, h_max c + /2) else (h_min c, h_max c).
Definition continuous_bin (c : hist_config) (x : R) : Z :=
  histogram_bin (h_size c) (fst (bin_range c)) (snd (bin_range c)) (np_clip (h_min c) (h_max c) x).

Lemma continuous_bins c : (0 < h_size c)%nat -> h_min c <= h_max c ->
  bins_with estimate_continuous c (fun _ => True) (continuous_bin c).
Proof.
  intros Hk Hm. assert (HK : 0 < INR (h_size c)) by (apply lt_0_INR; exact Hk). split.
  - intros x _. unfold continuous_bin, histogram_bin.
    set (lo := fst (bin_range c)). set (hi := snd (bin_range c)). set (y := np_clip (h_min c) (h_max c) x).
    assert (Hy : lo <= y <= hi /\ lo < hi).
    { assert (h_min c <= y <= h_max c).
      { unfold y, np_clip. split; [apply Rmin_glb; [apply Rmax_r|exact Hm]|apply Rmin_r]. }
      unfold lo, hi, bin_range. destruct (Reqb_spec (h_min c) (h_max c)); cbn [fst snd]; lra. }
    set (v := (y - lo) * INR (h_size c) / (hi - lo)).
    assert (Hv : 0 <= v <= INR (h_size c)).
    { unfold v. split.
      - apply Rmult_le_pos; [nra|apply Rlt_le, Rinv_0_lt_compat; lra].
      - apply Rmult_le_reg_r with (hi - lo); [lra|].
        replace ((y - lo) * INR (h_size c) / (hi - lo) * (hi - lo)) with ((y - lo) * INR (h_size c)) by (field; lra). nra. }
    destruct (base_Int_part v) as [B1 B2]. rewrite INR_IZR_INZ in Hv.
    assert (0 <= Int_part v)%Z by (assert (-1 < Int_part v)%Z by (apply lt_IZR; lra); lia).
    assert (Int_part v <= Z.of_nat (h_size c))%Z by (apply le_IZR; lra).
    destruct (Z.eqb_spec (Int_part v) (Z.of_nat (h_size c))); lia.
  - intros s Hs _. unfold estimate_continuous. destruct s as [|x s]; [congruence|].
    destruct (Nat.eqb_spec (h_size c) 0); [lia|]. rewrite Rltb_false by exact Hm.
    assert (E : (if Reqb (h_min c) (h_max c) then (h_min c - / 2, h_max c + / 2) else (h_min c, h_max c)) = (fst (bin_range c), snd (bin_range c)))
      by (unfold bin_range; destruct (Reqb (h_min c) (h_max c)); reflexivity).
    rewrite E. f_equal. unfold frequencies, bin_counts. rewrite map_length, !map_map. apply map_ext. intros i.
    do 2 f_equal. rewrite filter_map_length. reflexivity.
Qed.

(** * A good sample is not rejected *)
Section NoReject.
  Context {O A : Type} (om : list (O * R)) (m1 m2 : O -> A) (dist : hist_config -> list A -> res (list R))
          (t : hist_tester) (ok : A -> Prop) (bin : A -> Z) (failure : R).
  Hypothesis Hom : distribution om.
  Hypothesis Hbin : bins_with dist (t_config t) ok bin.
  Hypothesis Hok1 : forall o, ok (m1 o).
  Hypothesis Hok2 : forall o, ok (m2 o).
  Hypothesis Hdp : dp_pair om m1 m2 (t_epsilon t) (t_delta t).
  Hypothesis Hfail : 0 < failure.
  Local Notation k := (h_size (t_config t)).
  Local Notation b1 := (fun o => bin (m1 o)).
  Local Notation b2 := (fun o => bin (m2 o)).

  Lemma freq_of (m : O -> A) l : frequencies bin k (map m l) = map (freq (fun o => bin (m o)) l) (seq 0 k).
  Proof.
    unfold frequencies, bin_counts, freq, cnt, hit. rewrite map_map, map_length. apply map_ext. intros i.
    rewrite filter_map_length. reflexivity.
  Qed.

  Lemma no_reject l1 l2 : (0 < List.length l1)%nat -> (0 < List.length l2)%nat ->
    good om b1 k (ln (4 / failure)) l1 -> good om b2 k (ln (4 / failure)) l2 ->
    rejects (reject_property t) (estimate_lower_bound dist t (map m1 l1) (map m2 l2) failure) = false.
  Proof.
    intros Hl1 Hl2 G1 G2. destruct Hbin as [Hr Hd].
    assert (Hb1 : forall o, (0 <= b1 o < Z.of_nat k)%Z) by (intros; apply Hr, Hok1).
    assert (Hb2 : forall o, (0 <= b2 o < Z.of_nat k)%Z) by (intros; apply Hr, Hok2).
    unfold estimate_lower_bound. rewrite !Hd.
    2:{ intros E. apply (f_equal (@List.length A)) in E. rewrite map_length in E. cbn [List.length] in E. lia. }
    2:{ intros a Ha. apply in_map_iff in Ha. destruct Ha as (o & <- & _). apply Hok2. }
    2:{ intros E. apply (f_equal (@List.length A)) in E. rewrite map_length in E. cbn [List.length] in E. lia. }
    2:{ intros a Ha. apply in_map_iff in Ha. destruct Ha as (o & <- & _). apply Hok1. }
    cbn [bind]. rewrite !map_length. set (n := Nat.min (List.length l1) (List.length l2)).
    assert (Hn : (0 < n)%nat) by (unfold n; lia). assert (HN : 0 < INR n) by (apply lt_0_INR; exact Hn).
    unfold error_tolerance. rewrite Reqb_false by lra. cbn [bind rejects].
    assert (H4 : 0 < 4 / failure) by (apply Rmult_lt_0_compat; [lra|apply Rinv_0_lt_compat; exact Hfail]).
    unfold np_log. rewrite Rleb_false by exact H4. unfold np_sqrt.
    destruct (Rltb_spec (ln (4 / failure) / (2 * INR n)) 0) as [Hneg|Hpos]; [reflexivity|].
    cbn [reject_property]. apply Rleb_false.
    set (L := ln (4 / failure)) in *.
    assert (HL : 0 <= L).
    { assert (L = L / (2 * INR n) * (2 * INR n)) by (field; lra). nra. }
    set (e := exp (t_epsilon t)). assert (He : 0 < e) by apply exp_pos.
    set (F1 := freq b1 l1). set (F2 := freq b2 l2). set (P := prob om b1). set (Q := prob om b2).
    assert (D1 := good_dev om b1 k l1 L Hl1 HL n G1 ltac:(unfold n; lia)). fold F1 P in D1.
    assert (D2 := good_dev om b2 k l2 L Hl2 HL n G2 ltac:(unfold n; lia)). fold F2 Q in D2.
    destruct (freq_dev om b1 k l1 Hom Hb1 Hl1) as [V1 _]. fold F1 P in V1.
    destruct (freq_dev om b2 k l2 Hom Hb2 Hl2) as [_ V2]. fold F2 Q in V2.
    assert (Hpt : point_estimate t (frequencies bin k (map m1 l1)) (frequencies bin k (map m2 l2))
                  = rsum (fun i => pos (F1 i - e * F2 i)) (seq 0 k)).
    { unfold point_estimate. rewrite !freq_of, combine_map, map_map. cbn [fst snd]. apply rsum_positive. }
    assert (Hsum : rsum (fun i => pos (F1 i - e * F2 i)) (seq 0 k) <= t_delta t
                     + / 2 * rsum (fun i => Rabs (F1 i - P i)) (seq 0 k) + e * (/ 2 * rsum (fun i => Rabs (F2 i - Q i)) (seq 0 k))).
    { rewrite <- V1, <- V2.
      apply Rle_trans with (rsum (fun i => pos (P i - e * Q i) + pos (F1 i - P i) + e * pos (Q i - F2 i)) (seq 0 k)).
      - apply rsum_le. intros i _. apply pos_split. lra.
      - rewrite !rsum_plus, rsum_scal. pose proof (dp_bins om m1 m2 bin k (t_epsilon t) (t_delta t) Hb1 Hb2 Hdp). fold P Q e in H. lra. }
    rewrite Hpt. rewrite !freq_of, !rsum_map. fold F1 F2.
    assert (Hs : 0 < / sqrt (INR n)) by (apply Rinv_0_lt_compat, sqrt_lt_R0; exact HN).
    assert (S1 := sqrt_sum b1 k l1 Hb1 Hl1). fold F1 in S1.
    assert (S2 := sqrt_sum b2 k l2 Hb2 Hl2). fold F2 in S2.
    set (T1 := rsum (fun i => sqrt (F1 i)) (seq 0 k)) in *. set (T2 := rsum (fun i => sqrt (F2 i)) (seq 0 k)) in *.
    set (A1 := / 2 * rsum (fun i => Rabs (F1 i - P i)) (seq 0 k)) in *.
    set (A2 := / 2 * rsum (fun i => Rabs (F2 i - Q i)) (seq 0 k)) in *.
    set (r := sqrt (L / (2 * INR n))) in *. set (s := sqrt (INR n)) in *.
    assert (Hterm : 2 / s * T1 + 2 * e / s * T2
       <= (if h_original (t_config t) then 2 * (1 + e) * sqrt (INR k / INR n) else 2 / s * T1 + 2 * e / s * T2)).
    { destruct (h_original (t_config t)); [|lra]. rewrite sqrt_div_alt by exact HN. fold s.
      unfold Rdiv. set (q := / s) in *.
      assert (q * T1 <= q * sqrt (INR k)) by (apply Rmult_le_compat_l; lra).
      assert (e * q * T2 <= e * q * sqrt (INR k)) by (apply Rmult_le_compat_l; [apply Rlt_le, Rmult_lt_0_compat|]; lra).
      lra. }
    assert (E2 : e * A2 <= e * (2 / s * T2 + 6 * r)) by (apply Rmult_le_compat_l; lra).
    replace (e * (2 / s * T2 + 6 * r)) with (2 * e / s * T2 + 6 * e * r) in E2 by (unfold Rdiv; ring).
    lra.
  Qed.
End NoReject.

(** * Probabilities of rejection *)
Lemma good_prob {O} (om : list (O * R)) (b : O -> Z) k n failure : distribution om -> (forall o, (0 <= b o < Z.of_nat k)%Z) ->
  (0 < n)%nat -> 0 < failure <= 4 ->
  mean om n (fun l => indicator (Rleb (4 * sqrt (ln (4 / failure) * INR n)) (excess om b k n l))) <= failure / 4.
Proof.
  intros Hom Hb Hn Hf.
  assert (H4 : 1 <= 4 / failure).
  { apply Rmult_le_reg_r with failure; [lra|]. replace (4 / failure * failure) with 4 by (field; lra). lra. }
  eapply Rle_trans; [apply (excess_tail om b k Hom Hb n (ln (4 / failure)) Hn)|].
  - rewrite <- ln_1. destruct H4 as [H4|H4]; [left; apply ln_increasing; lra|right; f_equal; exact H4].
  - rewrite exp_Ropp, exp_ln by lra. right. field. lra.
Qed.

Lemma indicator_range b : 0 <= indicator b <= 1.
Proof. destruct b; cbn [indicator]; lra. Qed.

(** What is rejected only on bad samples is rejected rarely. *)
Lemma bad_prob {O} (om : list (O * R)) (b1 b2 : O -> Z) k n1 n2 failure (f : list O -> list O -> R) :
  distribution om -> (forall o, (0 <= b1 o < Z.of_nat k)%Z) -> (forall o, (0 <= b2 o < Z.of_nat k)%Z) ->
  (0 < n1)%nat -> (0 < n2)%nat -> 0 < failure ->
  (forall l1 l2, List.length l1 = n1 -> List.length l2 = n2 -> f l1 l2 <= 1) ->
  (forall l1 l2, List.length l1 = n1 -> List.length l2 = n2 ->
     good om b1 k (ln (4 / failure)) l1 -> good om b2 k (ln (4 / failure)) l2 -> f l1 l2 <= 0) ->
  (4 < failure -> forall l1 l2, List.length l1 = n1 -> List.length l2 = n2 -> f l1 l2 <= 0) ->
  mean om n1 (fun l1 => mean om n2 (fun l2 => f l1 l2)) <= failure / 2.
Proof.
  intros Hom Hb1 Hb2 Hn1 Hn2 Hf Hf1 Hg Hbig. destruct (Rle_lt_dec failure 4) as [H4|H4].
  - assert (P1 := good_prob om b1 k n1 failure Hom Hb1 Hn1 (conj Hf H4)).
    assert (P2 := good_prob om b2 k n2 failure Hom Hb2 Hn2 (conj Hf H4)).
    set (I1 := fun l => indicator (Rleb (4 * sqrt (ln (4 / failure) * INR n1)) (excess om b1 k n1 l))) in *.
    set (I2 := fun l => indicator (Rleb (4 * sqrt (ln (4 / failure) * INR n2)) (excess om b2 k n2 l))) in *.
    apply Rle_trans with (mean om n1 (fun l1 => I1 l1 + mean om n2 I2)).
    + apply mean_le; [exact Hom|]. intros l1 H1. rewrite <- (mean_const om Hom n2 (I1 l1)), <- mean_plus.
      apply mean_le; [exact Hom|]. intros l2 H2. specialize (Hf1 l1 l2 H1 H2). specialize (Hg l1 l2 H1 H2).
      unfold good in Hg. rewrite H1, H2 in Hg.
      unfold I1, I2. destruct (Rleb_spec (4 * sqrt (ln (4 / failure) * INR n1)) (excess om b1 k n1 l1)) as [B1|B1];
        destruct (Rleb_spec (4 * sqrt (ln (4 / failure) * INR n2)) (excess om b2 k n2 l2)) as [B2|B2]; cbn [indicator]; try lra.
    + rewrite mean_plus, mean_const by exact Hom. change (fun l1 : list O => I1 l1) with I1. lra.
  - apply Rle_trans with 0; [|lra]. rewrite <- (mean_const om Hom n1 0). apply mean_le; [exact Hom|]. intros l1 H1.
    rewrite <- (mean_const om Hom n2 0). apply mean_le; [exact Hom|]. intros l2 H2. apply Hbig; assumption.
Qed.

(** A failure probability above 4 never rejects: the tolerance is NaN. *)
Lemma big_failure {A} dist t (s1 s2 : list A) failure : 4 < failure -> s1 <> [] -> s2 <> [] ->
  rejects (reject_property t) (estimate_lower_bound dist t s1 s2 failure) = false.
Proof.
  intros Hf N1 N2. unfold estimate_lower_bound.
  destruct (dist (t_config t) s1) as [p1|]; cbn [bind rejects]; [|reflexivity].
  destruct (dist (t_config t) s2) as [p2|]; cbn [bind rejects]; [|reflexivity].
  unfold error_tolerance. rewrite Reqb_false by lra. cbn [bind rejects]. unfold np_log.
  assert (H4 : 0 < 4 / failure < 1).
  { split; [apply Rmult_lt_0_compat; [lra|apply Rinv_0_lt_compat; lra]|].
    apply Rmult_lt_reg_r with failure; [lra|]. replace (4 / failure * failure) with 4 by (field; lra). lra. }
  rewrite Rleb_false by lra. unfold np_sqrt. rewrite Rltb_true; [reflexivity|].
  assert (HL : ln (4 / failure) < 0) by (rewrite <- ln_1; apply ln_increasing; lra).
  assert (HN : 0 < INR (Nat.min (List.length s1) (List.length s2))).
  { apply lt_0_INR. destruct s1, s2; try congruence. cbn [List.length]. lia. }
  assert (0 < / (2 * INR (Nat.min (List.length s1) (List.length s2)))) by (apply Rinv_0_lt_compat; lra).
  unfold Rdiv. nra.
Qed.

Lemma map_nonempty {A B} (f : A -> B) l : (0 < List.length l)%nat -> map f l <> [].
Proof. destruct l; cbn [List.length map]; [lia|discriminate]. Qed.

(** C60: one test. *)
Lemma tester_level {O A} (om : list (O * R)) (m1 m2 : O -> A) dist t (ok : A -> Prop) bin failure n1 n2 :
  distribution om -> bins_with dist (t_config t) ok bin -> (forall o, ok (m1 o)) -> (forall o, ok (m2 o)) ->
  dp_pair om m1 m2 (t_epsilon t) (t_delta t) -> 0 < failure -> (0 < n1)%nat -> (0 < n2)%nat ->
  mean om n1 (fun l1 => mean om n2 (fun l2 =>
    indicator (rejects (reject_property t) (estimate_lower_bound dist t (map m1 l1) (map m2 l2) failure)))) <= failure / 2.
Proof.
  intros Hom Hbin Hok1 Hok2 Hdp Hf Hn1 Hn2.
  apply (bad_prob om (fun o => bin (m1 o)) (fun o => bin (m2 o)) (h_size (t_config t)) n1 n2 failure
    (fun l1 l2 => indicator (rejects (reject_property t) (estimate_lower_bound dist t (map m1 l1) (map m2 l2) failure)))); auto.
  - intros o. apply Hbin, Hok1.
  - intros o. apply Hbin, Hok2.
  - intros. apply indicator_range.
  - intros l1 l2 H1 H2 G1 G2. rewrite (no_reject om m1 m2 dist t ok bin failure); auto; try lia. cbn [indicator]; lra.
  - intros H4 l1 l2 H1 H2. rewrite big_failure by (auto; apply map_nonempty; lia). cbn [indicator]; lra.
Qed.
