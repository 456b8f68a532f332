(** The noisy max mechanism is the exponential mechanism. *)
From Verif Require Import Base Exn ModelNoisyMax SpecDP SpecRun SpecNoisyMax ProofShape ProofRun ProofSvtDp.
Local Open Scope R_scope.

(** argmax. *)
Lemma argmax_from_spec l : forall best at_best next v,
  (at_best < next)%nat -> v at_best = best -> (forall j, (j < at_best)%nat -> v j < best) -> (forall j, (j < next)%nat -> v j <= best) ->
  (forall j, (j < List.length l)%nat -> v (next + j)%nat = nth j l 0) ->
  let i := argmax_from best at_best next l in
  (i < next + List.length l)%nat /\ (forall j, (j < i)%nat -> v j < v i) /\ (forall j, (j < next + List.length l)%nat -> v j <= v i).
Proof.
  induction l as [|x l IH]; intros best at_best next v Ha Hb Hs Hl Hv; cbn [argmax_from List.length].
  - rewrite Nat.add_0_r, Hb. split; [exact Ha|]. split; [exact Hs|exact Hl].
  - assert (Hx : v next = x) by (specialize (Hv 0%nat ltac:(cbn [List.length]; lia)); rewrite Nat.add_0_r in Hv; exact Hv).
    assert (Hv' : forall j, (j < List.length l)%nat -> v (S next + j)%nat = nth j l 0).
    { intros j Hj. specialize (Hv (S j) ltac:(cbn [List.length]; lia)). cbn [nth] in Hv. rewrite <- Hv. f_equal. lia. }
    replace (next + S (List.length l))%nat with (S next + List.length l)%nat by lia.
    destruct (Rltb_spec best x) as [L|L].
    + apply IH; [lia | exact Hx | intros j Hj; specialize (Hl j Hj); lra | | exact Hv'].
      intros j Hj. destruct (Nat.eq_dec j next) as [->|N]; [lra|]. specialize (Hl j ltac:(lia)). lra.
    + apply IH; [lia | exact Hb | exact Hs | | exact Hv'].
      intros j Hj. destruct (Nat.eq_dec j next) as [->|N]; [lra|]. apply Hl. lia.
Qed.
Lemma argmax_spec v n i : argmax (map v (seq 0 n)) = Ok i <-> (i < n)%nat /\ (forall j, (j < i)%nat -> v j < v i) /\ (forall j, (j < n)%nat -> v j <= v i).
Proof.
  assert (D : forall k, argmax (map v (seq 0 n)) = Ok k -> (k < n)%nat /\ (forall j, (j < k)%nat -> v j < v k) /\ (forall j, (j < n)%nat -> v j <= v k)).
  { intros k. destruct n as [|n]; cbn [seq map argmax]; [discriminate|]. intros E. injection E as <-.
    pose proof (argmax_from_spec (map v (seq 1 n)) (v 0%nat) 0 1 v ltac:(lia) eq_refl ltac:(intros; lia)) as S.
    rewrite map_length, seq_length in S. apply S.
    - intros j Hj. assert (j = 0%nat) as -> by lia. lra.
    - intros j Hj. rewrite (nth_indep _ 0 (v 0%nat)) by (rewrite map_length, seq_length; exact Hj). rewrite map_nth, seq_nth by exact Hj. reflexivity. }
  split; [apply D|]. intros (Hi & S & L).
  destruct (argmax (map v (seq 0 n))) as [k|e] eqn:E.
  - destruct (D k eq_refl) as (Hk & Sk & Lk). f_equal. destruct (Nat.lt_trichotomy k i) as [H|[H|H]]; [|exact H|].
    + pose proof (S k H). pose proof (Lk i Hi). lra.
    + pose proof (Sk i H). pose proof (L k Hk). lra.
  - destruct n; [lia|]. discriminate E.
Qed.

Lemma counts_votes n data i : (i < n)%nat -> nth i (element_counts n data) 0 = votes data i.
Proof.
  intros Hi. unfold element_counts. rewrite (nth_indep _ 0 (INR (count_occ Z.eq_dec data (Z.of_nat 0)))) by (rewrite map_length, seq_length; exact Hi).
  rewrite (map_nth (fun i => INR (count_occ Z.eq_dec data (Z.of_nat i)))), seq_nth by exact Hi. cbn [Nat.add].
  unfold votes. induction data as [|r data IH]; cbn [count_occ rsum]; [reflexivity|].
  destruct (Z.eq_dec r (Z.of_nat i)) as [->|N].
  - rewrite Z.eqb_refl, S_INR, IH. ring.
  - apply Z.eqb_neq in N. rewrite N, IH. ring.
Qed.

Lemma noisy_max_winner noise e n data i : 0 < e ->
  (noisy_max noise e n data 1 = Ok [i] <->
   (i < n)%nat /\
   (forall j, (j < i)%nat -> votes data j + 2 / e * noise 0%nat j < votes data i + 2 / e * noise 0%nat i) /\
   (forall j, (j < n)%nat -> votes data j + 2 / e * noise 0%nat j <= votes data i + 2 / e * noise 0%nat i)).
Proof.
  intros He. unfold noisy_max, gumbel_scale. rewrite Reqb_false by lra. rewrite Rltb_false by (apply div_nonneg; lra). cbn [bind seq map_res].
  set (v := fun i => votes data i + 2 / e * noise 0%nat i).
  replace (map (fun i0 => nth i0 (element_counts n data) 0 + 2 / e * noise 0%nat i0) (seq 0 n)) with (map v (seq 0 n)).
  2:{ apply map_ext_in. intros j Hj. apply in_seq in Hj. unfold v. rewrite counts_votes by lia. reflexivity. }
  transitivity (argmax (map v (seq 0 n)) = Ok i); [|exact (argmax_spec v n i)]. destruct (argmax (map v (seq 0 n))) as [k|x]; cbn [bind]; [|split; discriminate].
  split; intros E; injection E as ->; reflexivity.
Qed.

(** The law of the winner. *)
Section Law.
  Context (b : R) (n : nat) (score : nat -> R) (Hb : 0 < b).
  Definition weight (j : nat) : R := exp (score j / b).
  Definition total : R := rsum weight (seq 0 n).
  Lemma weight_pos j : 0 < weight j.
  Proof. apply exp_pos. Qed.
  Lemma total_pos : (0 < n)%nat -> 0 < total.
  Proof.
    intros H. unfold total. destruct n as [|m]; [lia|]. cbn [seq rsum]. pose proof (weight_pos 0).
    assert (0 <= rsum weight (seq 1 m)); [|lra]. apply rsum_nonneg. intros j _. left. apply weight_pos.
  Qed.
  Lemma gumbel_weight x j : gumbel_law b (x - score j) = exp (- (weight j * exp (- x / b))).
  Proof.
    unfold gumbel_law, weight. replace (- (x - score j) / b) with (score j / b + - x / b) by (field; lra). rewrite exp_plus. reflexivity.
  Qed.
  Lemma gumbel_product x l : rprod (fun j => gumbel_law b (x - score j)) l = exp (- (rsum weight l * exp (- x / b))).
  Proof.
    induction l as [|j l IH]; cbn [rprod rsum]; [replace (- (0 * exp (- x / b))) with 0 by ring; rewrite exp_0; reflexivity|].
    rewrite IH, gumbel_weight, <- exp_plus. f_equal. ring.
  Qed.
  Lemma weight_split i l : NoDup l -> In i l -> rsum weight l = weight i + rsum weight (filter (fun j => negb (j =? i)%nat) l).
  Proof.
    induction l as [|j l IH]; intros N I; [destruct I|]. inversion N as [|? ? Nj Nl]; subst. cbn [rsum filter].
    destruct (Nat.eqb_spec j i) as [->|E]; cbn [negb].
    - f_equal. f_equal. clear - Nj. induction l as [|k l IH]; [reflexivity|]. cbn [filter].
      assert (k <> i) by (intros ->; apply Nj; left; reflexivity). apply Nat.eqb_neq in H. rewrite H. cbn [negb]. f_equal. apply IH. intros K. apply Nj. right. exact K.
    - cbn [rsum]. destruct I as [->|I]; [contradiction|]. rewrite (IH Nl I). ring.
  Qed.
  Lemma winner_integral i : (i < n)%nat ->
    integral_is (fun x => gumbel_density b (x - score i)
      * rprod (fun j => gumbel_law b (x - score j)) (filter (fun j => negb (j =? i)%nat) (seq 0 n))) (weight i / total).
  Proof.
    intros Hi. assert (T : 0 < total) by (apply total_pos; lia). pose proof (weight_pos i) as W.
    apply (integral_ext (fun x => weight i * exp (- x / b) / b * exp (- (total * exp (- x / b))))).
    { intros x. rewrite gumbel_product. unfold gumbel_density. fold (gumbel_law b (x - score i)). rewrite gumbel_weight.
      replace (exp (- (x - score i) / b)) with (weight i * exp (- x / b)).
      2:{ unfold weight. rewrite <- exp_plus. f_equal. field. lra. }
      unfold total. rewrite (weight_split i (seq 0 n) (seq_NoDup _ _) ltac:(apply in_seq; lia)).
      replace (- ((weight i + rsum weight (filter (fun j => negb (j =? i)%nat) (seq 0 n))) * exp (- x / b)))
        with (- (weight i * exp (- x / b)) + - (rsum weight (filter (fun j => negb (j =? i)%nat) (seq 0 n)) * exp (- x / b))) by ring.
      rewrite exp_plus. unfold Rdiv. ring. }
    exists (fun x => weight i / total * exp (- (total * exp (- x / b)))). split; [|split].
    - intros x. replace (weight i * exp (- x / b) / b * exp (- (total * exp (- x / b))))
        with (weight i / total * (exp (- (total * exp (- x / b))) * - (total * (exp (- x / b) * (- (1) / b))))) by (field; lra).
      apply (derivable_pt_lim_scal (fun x => exp (- (total * exp (- x / b)))) (weight i / total)).
      apply (derivable_pt_lim_comp (fun x => - (total * exp (- x / b))) exp); [|apply derivable_pt_lim_exp].
      apply (derivable_pt_lim_opp (fun x => total * exp (- x / b))). apply (derivable_pt_lim_scal (fun x => exp (- x / b)) total).
      apply (derivable_pt_lim_comp (fun x => - x / b) exp); [|apply derivable_pt_lim_exp].
      replace (- (1) / b) with (- (1) * / b + - x * 0) by (field; lra).
      apply (derivable_pt_lim_mult (fun x => - x) (fun _ => / b)); [apply (derivable_pt_lim_opp (fun x => x)), derivable_pt_lim_id | apply derivable_pt_lim_const].
    - intros e He. set (C := weight i / total). assert (HC : 0 < C) by (apply Rdiv_lt_0_compat; assumption).
      set (y := Rmax 1 (- ln (e / C) / total)). assert (Hy : 1 <= y) by apply Rmax_l.
      exists (- (b * ln y)). intros x Hx. rewrite Rabs_right by (apply Rle_ge; left; apply Rmult_lt_0_compat; [exact HC | apply exp_pos]).
      assert (Y : y <= exp (- x / b)).
      { rewrite <- (exp_ln y) by lra. apply exp_le. apply (Rmult_le_reg_r b); [exact Hb|]. unfold Rdiv. rewrite Rmult_assoc, Rinv_l; lra. }
      assert (Z : - ln (e / C) <= total * exp (- x / b)).
      { apply (Rle_trans _ (total * y)); [|apply Rmult_le_compat_l; lra]. pose proof (Rmax_r 1 (- ln (e / C) / total)) as M. fold y in M.
        apply (Rmult_le_compat_l total) in M; [|lra]. replace (total * (- ln (e / C) / total)) with (- ln (e / C)) in M by (field; lra). exact M. }
      apply (Rle_trans _ (C * exp (ln (e / C)))); [apply Rmult_le_compat_l; [lra | apply exp_le; lra]|].
      rewrite exp_ln by (apply Rdiv_lt_0_compat; assumption). right. field. lra.
    - intros e He. set (C := weight i / total). assert (HC : 0 < C) by (apply Rdiv_lt_0_compat; assumption).
      set (d := e / (C * total)). assert (Hd : 0 < d) by (apply Rdiv_lt_0_compat; [exact He | apply Rmult_lt_0_compat; assumption]).
      exists (- (b * ln d)). intros x Hx.
      assert (Y : exp (- x / b) <= d).
      { rewrite <- (exp_ln d) by lra. apply exp_le. apply (Rmult_le_reg_r b); [exact Hb|]. unfold Rdiv. rewrite Rmult_assoc, Rinv_l; lra. }
      pose proof (exp_pos (- x / b)) as P. pose proof (exp_ineq1_le (- (total * exp (- x / b)))) as I1.
      assert (I2 : exp (- (total * exp (- x / b))) <= exp 0) by (apply exp_le; nra). rewrite exp_0 in I2.
      replace (C * exp (- (total * exp (- x / b))) - C) with (- (C * (1 - exp (- (total * exp (- x / b)))))) by ring.
      rewrite Rabs_Ropp, Rabs_right by (apply Rle_ge, Rmult_le_pos; lra).
      apply (Rle_trans _ (C * (total * d))); [apply Rmult_le_compat_l; [lra|]; nra|].
      unfold d. right. field. split; lra.
  Qed.
  Lemma winner_value p i : winner_law b n score p -> (i < n)%nat -> p i = weight i / total.
  Proof. intros H Hi. exact (integral_unique _ _ _ (H i Hi) (winner_integral i Hi)). Qed.
End Law.

Lemma winner_exponential e n data p : 0 < e -> winner_law (2 / e) n (votes data) p ->
  forall i, (i < n)%nat -> p i = exponential_mechanism e n (votes data) i.
Proof.
  intros He H i Hi. assert (Hb : 0 < 2 / e) by (apply Rdiv_lt_0_compat; lra).
  rewrite (winner_value _ n _ Hb p i H Hi). unfold exponential_mechanism, total, weight.
  assert (E : forall j, votes data j / (2 / e) = e * votes data j / 2) by (intros j; field; lra).
  rewrite E. f_equal. apply rsum_ext. intros j _. rewrite E. reflexivity.
Qed.
Lemma winner_exists e n data : 0 < e -> winner_law (2 / e) n (votes data) (exponential_mechanism e n (votes data)).
Proof.
  intros He i Hi. assert (Hb : 0 < 2 / e) by (apply Rdiv_lt_0_compat; lra).
  pose proof (winner_integral (2 / e) n (votes data) Hb i Hi) as W.
  replace (exponential_mechanism e n (votes data) i) with (weight (2 / e) (votes data) i / total (2 / e) n (votes data)); [exact W|].
  assert (E : forall j, votes data j / (2 / e) = e * votes data j / 2) by (intros j; field; lra).
  unfold exponential_mechanism, total, weight. rewrite E. f_equal. apply rsum_ext. intros j _. rewrite E. reflexivity.
Qed.

(** Privacy of the exponential mechanism: scores that grow by at most 1, resp. differ by at most 1. *)
Lemma exponential_valid e n s : (0 < n)%nat ->
  (forall i, (i < n)%nat -> 0 <= exponential_mechanism e n s i) /\ rsum (exponential_mechanism e n s) (seq 0 n) = 1.
Proof.
  intros Hn. set (T := rsum (fun j => exp (e * s j / 2)) (seq 0 n)).
  assert (HT : 0 < T).
  { unfold T. destruct n as [|m]; [lia|]. cbn [seq rsum]. pose proof (exp_pos (e * s 0%nat / 2)).
    assert (0 <= rsum (fun j => exp (e * s j / 2)) (seq 1 m)); [|lra]. apply rsum_nonneg. intros j _. left. apply exp_pos. }
  split.
  - intros i _. unfold exponential_mechanism. fold T. left. apply Rdiv_lt_0_compat; [apply exp_pos | exact HT].
  - unfold exponential_mechanism. fold T. unfold Rdiv. rewrite rsum_scal_r. fold T. apply Rinv_r. lra.
Qed.
Lemma exponential_ratio e n s s' lo hi i : 0 < e -> (i < n)%nat -> (forall j, (j < n)%nat -> lo <= s j - s' j <= hi) ->
  exponential_mechanism e n s i <= exp (e * (hi - lo) / 2) * exponential_mechanism e n s' i.
Proof.
  intros He Hi H. unfold exponential_mechanism.
  assert (P : forall u, 0 < rsum (fun j => exp (e * u j / 2)) (seq 0 n)).
  { intros u. destruct n as [|m]; [lia|]. cbn [seq rsum]. pose proof (exp_pos (e * u 0%nat / 2)).
    assert (0 <= rsum (fun j => exp (e * u j / 2)) (seq 1 m)); [|lra]. apply rsum_nonneg. intros j _. left. apply exp_pos. }
  set (T := rsum (fun j => exp (e * s j / 2)) (seq 0 n)). set (T' := rsum (fun j => exp (e * s' j / 2)) (seq 0 n)).
  assert (HT : 0 < T) by apply P. assert (HT' : 0 < T') by apply P.
  assert (A : exp (e * s i / 2) <= exp (e * hi / 2) * exp (e * s' i / 2)).
  { rewrite <- exp_plus. apply exp_le. specialize (H i Hi). nra. }
  assert (B : T' <= exp (- (e * lo / 2)) * T).
  { unfold T, T'. rewrite <- rsum_scal. apply rsum_le. intros j Hj. apply in_seq in Hj. rewrite <- exp_plus. apply exp_le. specialize (H j ltac:(lia)). nra. }
  replace (e * (hi - lo) / 2) with (e * hi / 2 + - (e * lo / 2)) by field. rewrite exp_plus.
  apply (Rmult_le_reg_r (T * T')); [apply Rmult_lt_0_compat; assumption|].
  replace (exp (e * s i / 2) / T * (T * T')) with (exp (e * s i / 2) * T') by (field; lra).
  replace (exp (e * hi / 2) * exp (- (e * lo / 2)) * (exp (e * s' i / 2) / T') * (T * T'))
    with ((exp (e * hi / 2) * exp (e * s' i / 2)) * (exp (- (e * lo / 2)) * T)) by (field; lra).
  apply Rmult_le_compat; try assumption; [left; apply exp_pos | lra].
Qed.

Lemma votes_app l r i : votes (l ++ r) i = votes l i + votes r i.
Proof. apply rsum_app. Qed.
Lemma vote_bounds x i : 0 <= (if (x =? Z.of_nat i)%Z then 1 else 0) <= 1.
Proof. destruct (x =? Z.of_nat i)%Z; lra. Qed.
Lemma winner_valid e n d d' p p' : 0 < e -> (0 < n)%nat -> winner_law (2 / e) n (votes d) p -> winner_law (2 / e) n (votes d') p' ->
  valid (mkExper nat (seq 0 n) p p').
Proof.
  intros He Hn P P'. destruct (exponential_valid e n (votes d) Hn) as [A1 A2]. destruct (exponential_valid e n (votes d') Hn) as [B1 B2].
  pose proof (winner_exponential e n d p He P) as EP. pose proof (winner_exponential e n d' p' He P') as EP'.
  split; [|split]; cbn [outs prP prQ].
  - intros i Hi. apply in_seq in Hi. rewrite EP, EP' by lia. split; [apply A1 | apply B1]; lia.
  - rewrite <- A2. apply rsum_ext. intros i Hi. apply in_seq in Hi. apply EP. lia.
  - rewrite <- B2. apply rsum_ext. intros i Hi. apply in_seq in Hi. apply EP'. lia.
Qed.
Lemma winner_dp e n d d' lo hi g p p' : 0 < e -> (forall j, (j < n)%nat -> lo <= votes d j - votes d' j <= hi) -> e * (hi - lo) / 2 <= g ->
  winner_law (2 / e) n (votes d) p -> winner_law (2 / e) n (votes d') p' -> dp (mkExper nat (seq 0 n) p p') g 0.
Proof.
  intros He H Hg P P'. apply pure_dp. intros i Hi. apply in_seq in Hi.
  rewrite (winner_exponential e n d p He P), (winner_exponential e n d' p' He P') by lia.
  eapply Rle_trans; [apply (exponential_ratio e n (votes d) (votes d') lo hi i He ltac:(lia) H)|].
  apply Rmult_le_compat_r; [apply (exponential_valid e n (votes d')); lia | apply exp_le, Hg].
Qed.
Lemma noisy_max_private e n d d' p p' : 0 < e -> (0 < n)%nat ->
  winner_law (2 / e) n (votes d) p -> winner_law (2 / e) n (votes d') p' ->
  let E := mkExper nat (seq 0 n) p p' in
  valid E /\ (record_replaced d d' -> dp_both E e 0) /\ (record_added d d' -> dp_both E (e / 2) 0).
Proof.
  intros He Hn P P' E. split; [exact (winner_valid e n d d' p p' He Hn P P')|]. split.
  - intros (l & x & y & r & -> & ->). split.
    + apply (winner_dp e n (l ++ x :: r) (l ++ y :: r) (- (1)) 1 e p p' He); [|lra|assumption|assumption].
      intros j _. rewrite !votes_app. unfold votes. cbn [rsum]. pose proof (vote_bounds x j). pose proof (vote_bounds y j). lra.
    + apply (winner_dp e n (l ++ y :: r) (l ++ x :: r) (- (1)) 1 e p' p He); [|lra|assumption|assumption].
      intros j _. rewrite !votes_app. unfold votes. cbn [rsum]. pose proof (vote_bounds x j). pose proof (vote_bounds y j). lra.
  - intros (l & x & r & -> & ->). split.
    + apply (winner_dp e n (l ++ r) (l ++ x :: r) (- (1)) 0 (e / 2) p p' He); [|lra|assumption|assumption].
      intros j _. rewrite !votes_app. unfold votes. cbn [rsum]. pose proof (vote_bounds x j). lra.
    + apply (winner_dp e n (l ++ x :: r) (l ++ r) 0 1 (e / 2) p' p He); [|lra|assumption|assumption].
      intros j _. rewrite !votes_app. unfold votes. cbn [rsum]. pose proof (vote_bounds x j). lra.
Qed.
(** The first of the largest. *)
Lemma noisy_max_example : noisy_max (fun _ i => match i with 1%nat => 1/2 | _ => 0 end) 1 3 [0%Z; 2%Z; 7%Z] 1 = Ok [0%nat].
Proof.
  apply (noisy_max_winner _ 1 3 _ 0 ltac:(lra)). split; [lia|]. split; [intros j Hj; lia|].
  intros j Hj. destruct j as [|[|[|j]]]; [| | |lia]; cbn; lra.
Qed.
