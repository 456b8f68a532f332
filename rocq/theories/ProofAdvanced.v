(** The optimal advanced composition theorem. *)
From Verif Require Import Base XReal Exn TypesRelation ModelMake ModelSearch ModelSmallest
  SpecDP SpecSearch SpecSmallest ProofDP ProofParams ProofSearch.
Local Arguments Rltb : simpl never.
Local Arguments Rleb : simpl never.
Local Arguments Reqb : simpl never.

(** ** Expectation of a function of the net number of truthful answers *)
Fixpoint walk (p : R) (n : nat) (h : R -> R) : R :=
  match n with
  | O => h 0
  | S n => p * walk p n (fun x => h (x + 1)) + (1 - p) * walk p n (fun x => h (x - 1))
  end.

Lemma walk_ext p n : forall g h, (forall x, g x = h x) -> walk p n g = walk p n h.
Proof.
  induction n as [|n IH]; intros g h H; cbn [walk]; [apply H|].
  rewrite (IH (fun x => g (x + 1)) (fun x => h (x + 1))), (IH (fun x => g (x - 1)) (fun x => h (x - 1))); auto.
Qed.
Lemma walk_le p n : 0 <= p <= 1 -> forall g h, (forall x, g x <= h x) -> walk p n g <= walk p n h.
Proof.
  intros Hp. induction n as [|n IH]; intros g h H; cbn [walk]; [apply H|].
  pose proof (IH (fun x => g (x + 1)) (fun x => h (x + 1)) (fun x => H (x + 1))).
  pose proof (IH (fun x => g (x - 1)) (fun x => h (x - 1)) (fun x => H (x - 1))). nra.
Qed.
Lemma walk_mono p p' n : 0 <= p <= p' -> p' <= 1 -> forall h, (forall x y, x <= y -> h x <= h y) ->
  walk p n h <= walk p' n h.
Proof.
  intros Hp Hp'. induction n as [|n IH]; intros h H; cbn [walk]; [lra|].
  assert (A := IH (fun x => h (x + 1)) ltac:(intros; apply H; lra)).
  assert (B := IH (fun x => h (x - 1)) ltac:(intros; apply H; lra)).
  assert (D := walk_le p' n ltac:(lra) (fun x => h (x - 1)) (fun x => h (x + 1)) ltac:(intros; apply H; lra)).
  nra.
Qed.
Lemma walk_const p n c : walk p n (fun _ => c) = c.
Proof. induction n as [|n IH]; cbn [walk]; [reflexivity|]. rewrite IH. lra. Qed.

(** Closed form *)
Definition bsum (n : nat) (g : nat -> R) : R := rsum (fun j => C n j * g j) (seq 0 (S n)).
Lemma C_n_n n : C n n = 1.
Proof. unfold C. rewrite Nat.sub_diag. cbn [fact]. change (INR 1) with 1. field. apply INR_fact_neq_0. Qed.
Lemma C_n_0 n : C n 0 = 1.
Proof. unfold C. rewrite Nat.sub_0_r. cbn [fact]. change (INR 1) with 1. field. apply INR_fact_neq_0. Qed.
Lemma rsum_seq_S (f : nat -> R) a n : rsum f (seq (S a) n) = rsum (fun j => f (S j)) (seq a n).
Proof. rewrite <- seq_shift, rsum_map. reflexivity. Qed.
Lemma rsum_seq_last (f : nat -> R) n : rsum f (seq 0 (S n)) = rsum f (seq 0 n) + f n.
Proof. rewrite seq_S, rsum_app. cbn. lra. Qed.
Lemma bsum_S n g : bsum (S n) g = bsum n g + bsum n (fun j => g (S j)).
Proof.
  unfold bsum.
  assert (E : rsum (fun j => C (S n) j * g j) (seq 0 (S (S n))) =
              C (S n) 0 * g 0%nat + rsum (fun j => C (S n) (S j) * g (S j)) (seq 0 n) + C (S n) (S n) * g (S n)).
  { rewrite rsum_seq_last. change (seq 0 (S n)) with (0%nat :: seq 1 n). cbn [rsum]. rewrite rsum_seq_S. reflexivity. }
  rewrite E. clear E. rewrite C_n_n, C_n_0.
  rewrite (rsum_seq_last (fun j => C n j * g (S j))), C_n_n.
  change (seq 0 (S n)) with (0%nat :: seq 1 n). cbn [rsum]. rewrite rsum_seq_S, C_n_0.
  rewrite (rsum_ext (fun j => C (S n) (S j) * g (S j)) (fun j => C n (S j) * g (S j) + C n j * g (S j))).
  - rewrite rsum_plus. lra.
  - intros j Hj. apply in_seq in Hj. rewrite <- pascal by lia. lra.
Qed.

Lemma walk_closed a n : forall h, walk (a / (1 + a)) n h =
  (if Rlt_dec 0 a then bsum n (fun j => a ^ (n - j) / (1 + a) ^ n * h (INR n - 2 * INR j)) else walk (a / (1 + a)) n h).
Proof.
  intros h. destruct (Rlt_dec 0 a) as [Ha|]; [|reflexivity]. revert h.
  induction n as [|n IH]; intros h.
  - unfold bsum. cbn. rewrite C_n_n. replace (0 - 2 * 0) with 0 by lra. lra.
  - cbn [walk]. rewrite !IH, bsum_S. unfold bsum. rewrite <- !rsum_scal. f_equal.
    + apply rsum_ext. intros j Hj. apply in_seq in Hj. rewrite S_INR.
      replace (S n - j)%nat with (S (n - j)) by lia. cbn [pow].
      replace (INR n - 2 * INR j + 1) with (INR n + 1 - 2 * INR j) by lra.
      field. split; [apply pow_nonzero; lra | lra].
    + apply rsum_ext. intros j Hj. apply in_seq in Hj. rewrite !S_INR.
      replace (S n - S j)%nat with (n - j)%nat by lia. cbn [pow].
      replace (INR n - 2 * INR j - 1) with (INR n + 1 - 2 * (INR j + 1)) by lra.
      field. split; [apply pow_nonzero; lra | lra].
Qed.

Definition odds (eps : R) : R := exp eps / (1 + exp eps).
Lemma odds_range eps : 0 < odds eps < 1.
Proof.
  unfold odds. pose proof (exp_pos eps). split.
  - apply Rdiv_lt_0_compat; lra.
  - apply (Rmult_lt_reg_r (1 + exp eps)); [lra|]. unfold Rdiv. rewrite Rmult_assoc, Rinv_l by lra. lra.
Qed.
Lemma odds_compl eps : 1 / (1 + exp eps) = 1 - odds eps.
Proof. unfold odds. pose proof (exp_pos eps). field. lra. Qed.
Lemma odds_mono e e' : e <= e' -> odds e <= odds e'.
Proof.
  intros H. pose proof (exp_le _ _ H). pose proof (exp_pos e). pose proof (exp_pos e').
  assert (1 - odds e' <= 1 - odds e); [|lra]. rewrite <- !odds_compl.
  unfold Rdiv. rewrite !Rmult_1_l. apply Rinv_le_contravar; lra.
Qed.

(** ** The privacy curve of k repeated *)
Definition kcurve (eps delta : R) (k : nat) (a b : R) : R :=
  (1 - (1 - delta) ^ k) * a + (1 - delta) ^ k * walk (odds eps) k (fun x => pos (a - b * exp (- (eps * x)))).

Definition step_l (eps delta : R) : list (R * R) :=
  [(exp eps, (1 - delta) * (1 - odds eps)); (exp (- eps), (1 - delta) * odds eps)].
Fixpoint pow_l (eps delta : R) (k : nat) : list (R * R) :=
  match k with O => [(1, 1)] | S k => prodl (pow_l eps delta k) (step_l eps delta) end.

Lemma pow_l_sum eps delta k : forall g, rsum (fun rm => snd rm * g (fst rm)) (pow_l eps delta k) =
  (1 - delta) ^ k * walk (odds eps) k (fun x => g (exp (- (eps * x)))).
Proof.
  induction k as [|k IH]; intros g.
  - cbn. rewrite Rmult_0_r, Ropp_0, exp_0. lra.
  - cbn [pow_l]. rewrite rsum_prodl.
    rewrite (rsum_ext _ (fun x => snd x * ((1 - delta) * odds eps * g (fst x * exp (- eps)) + (1 - delta) * (1 - odds eps) * g (fst x * exp eps)))).
    2: { intros x _. unfold step_l. cbn [rsum fst snd]. lra. }
    rewrite (IH (fun r => (1 - delta) * odds eps * g (r * exp (- eps)) + (1 - delta) * (1 - odds eps) * g (r * exp eps))).
    cbn [walk pow].
    assert (L : forall c d u v n, walk (odds eps) n (fun x => c * u x + d * v x) = c * walk (odds eps) n u + d * walk (odds eps) n v).
    { intros c d u v n. revert u v. induction n as [|n IHn]; intros u v; cbn [walk]; [reflexivity|].
      rewrite (IHn (fun x => u (x + 1)) (fun x => v (x + 1))), (IHn (fun x => u (x - 1)) (fun x => v (x - 1))). lra. }
    rewrite L.
    rewrite (walk_ext _ _ (fun x => g (exp (- (eps * x)) * exp (- eps))) (fun x => g (exp (- (eps * (x + 1)))))).
    2: { intros x. rewrite <- exp_plus. do 2 f_equal. lra. }
    rewrite (walk_ext _ _ (fun x => g (exp (- (eps * x)) * exp eps)) (fun x => g (exp (- (eps * (x - 1)))))).
    2: { intros x. rewrite <- exp_plus. do 2 f_equal. lra. }
    lra.
Qed.
Lemma kcurve_list eps delta k a b : curve (1 - (1 - delta) ^ k) (pow_l eps delta k) a b = kcurve eps delta k a b.
Proof. unfold curve, kcurve. rewrite (pow_l_sum eps delta k (fun r => pos (a - b * r))). reflexivity. Qed.

Lemma pow_l_ok eps delta k : 0 <= delta <= 1 -> okl (pow_l eps delta k).
Proof.
  intros Hd. pose proof (odds_range eps). induction k as [|k IH]; cbn [pow_l].
  - intros rm [<-|[]]. cbn. lra.
  - intros rm Hin. unfold prodl in Hin. apply in_flat_map in Hin. destruct Hin as (x & Hx & Hin).
    apply in_map_iff in Hin. destruct Hin as (y & <- & Hy). destruct (IH x Hx) as [A B]. cbn [fst snd].
    pose proof (exp_pos eps). pose proof (exp_pos (- eps)).
    destruct Hy as [<-|[<-|[]]]; cbn [fst snd]; split; try (apply Rmult_lt_0_compat; lra); (apply Rmult_le_pos; [lra | apply Rmult_le_pos; lra]).
Qed.

(** ** Soundness *)
Lemma step_desc eps delta : 0 <= eps -> desc (step_l eps delta).
Proof.
  intros He. unfold step_l. constructor; [|constructor; [intros x [] | constructor]].
  intros x [<-|[]]. cbn. apply exp_le. lra.
Qed.
Lemma step_ok eps delta : 0 <= delta <= 1 -> okl (step_l eps delta).
Proof.
  intros Hd rm Hin. pose proof (odds_range eps). pose proof (exp_pos eps). pose proof (exp_pos (- eps)).
  destruct Hin as [<-|[<-|[]]]; cbn; split; try lra; apply Rmult_le_pos; lra.
Qed.
Lemma private_step eps delta E : 0 <= eps -> 0 <= delta <= 1 -> private eps delta E ->
  hbounds delta (step_l eps delta) E /\ hbounds delta (step_l eps delta) (swap E).
Proof.
  intros He Hd [V D].
  assert (K : forall F, valid F -> dp_both F eps delta -> hbounds delta (step_l eps delta) F).
  { intros F VF DF. apply hbounds_of_eps; [assumption | lra | apply step_ok; assumption|].
    intros e. eapply Rle_trans; [apply (params_dominates F eps delta e VF He Hd DF)|].
    unfold params_curve, curve, step_l. cbn [rsum fst snd]. right.
    rewrite <- odds_compl. rewrite <- !exp_plus.
    replace (e + - eps) with (e - eps) by lra. replace (e + eps) with (e - - eps) by lra.
    unfold odds. pose proof (exp_pos eps). rewrite exp_Ropp.
    replace ((1 - delta) / (1 + / exp eps)) with ((1 - delta) * (exp eps / (1 + exp eps))) by (field; lra).
    replace ((1 - delta) / (1 + exp eps)) with ((1 - delta) * (1 / (1 + exp eps))) by (field; lra). lra. }
  split; apply K; [assumption | assumption | apply valid_swap, V|].
  destruct D as [D1 D2]. split; [assumption|]. rewrite swap_swap. assumption.
Qed.

Lemma pow_range x k : 0 <= x <= 1 -> 0 <= x ^ k <= 1.
Proof.
  intros H. induction k as [|k IH]; cbn; [lra|]. split; [apply Rmult_le_pos; lra|].
  replace 1 with (1 * 1) by lra. apply Rmult_le_compat; lra.
Qed.

Lemma advanced_bounds eps delta Cs E : 0 <= eps -> 0 <= delta <= 1 -> interaction Cs E -> forall k,
  Cs = repeat (private eps delta) k ->
  valid E /\ hbounds (1 - (1 - delta) ^ k) (pow_l eps delta k) E /\
  hbounds (1 - (1 - delta) ^ k) (pow_l eps delta k) (swap E).
Proof.
  intros He Hd HI. induction HI as [|Cs E C E' HI IH HC]; intros k Hk.
  - destruct k; [|discriminate]. split; [apply valid_silent|].
    assert (B : hbounds (1 - (1 - delta) ^ 0) (pow_l eps delta 0) silent).
    { intros a b Ha Hb. unfold hs, curve. cbn. rewrite !Rmult_1_r. lra. }
    split; exact B.
  - destruct k as [|k]; [destruct Cs; discriminate|].
    change (repeat (private eps delta) (S k)) with (private eps delta :: repeat (private eps delta) k) in Hk.
    rewrite repeat_cons in Hk. apply app_inj_tail in Hk. destruct Hk as [-> ->].
    destruct (IH k eq_refl) as (V & B1 & B2).
    pose proof (pow_range (1 - delta) k ltac:(lra)) as PR.
    split; [apply valid_seq; [assumption | intros x Hx; apply (HC x Hx)]|].
    replace (1 - (1 - delta) ^ S k) with ((1 - (1 - delta) ^ k) + delta - (1 - (1 - delta) ^ k) * delta) by (cbn [pow]; lra).
    cbn [pow_l]. split.
    + apply compose_bound; auto using step_desc, step_ok, pow_l_ok; try lra.
      intros o Ho. destruct (private_step eps delta (E' o) He Hd (HC o Ho)) as [K _]. split; [apply (HC o Ho) | exact K].
    + rewrite swap_seq. apply compose_bound; auto using step_desc, step_ok, pow_l_ok, valid_swap; try lra.
      intros o Ho. destruct (private_step eps delta (E' o) He Hd (HC o Ho)) as [_ K].
      split; [apply valid_swap, (HC o Ho) | exact K].
Qed.

Lemma advanced_dp eps delta k E e d : 0 <= eps -> 0 <= delta <= 1 ->
  interaction (repeat (private eps delta) k) E -> kcurve eps delta k 1 (exp e) <= d -> dp_both E e d.
Proof.
  intros He Hd HI H. destruct (advanced_bounds eps delta _ E He Hd HI k eq_refl) as (_ & B1 & B2).
  rewrite <- kcurve_list in H.
  split; apply dp_iff_hockey; (eapply Rle_trans; [|exact H]); apply eps_of_hbounds; assumption.
Qed.

(** ** Exactness for the leaky computation *)
Lemma leaky_valid eps delta : 0 <= delta <= 1 -> valid (leaky eps delta).
Proof.
  intros Hd. pose proof (odds_range eps). split; [|split].
  - intros a _. cbn [leaky prP prQ]. rewrite odds_compl. fold (odds eps).
    destruct a as [|[|[|a]]]; split; try lra; apply Rmult_le_pos; lra.
  - cbn. rewrite odds_compl. fold (odds eps). lra.
  - cbn. rewrite odds_compl. fold (odds eps). lra.
Qed.
Lemma leaky_hs eps delta a b : 0 <= delta <= 1 -> 0 <= a -> 0 <= b ->
  hs (leaky eps delta) a b = delta * a + (1 - delta) * odds eps * pos (a - b * exp (- eps))
                             + (1 - delta) * (1 - odds eps) * pos (a - b * exp eps).
Proof.
  intros Hd Ha Hb. pose proof (odds_range eps). pose proof (exp_pos eps).
  unfold hs. cbn [leaky outs prP prQ rsum]. rewrite odds_compl. fold (odds eps).
  assert (O1 : 1 - odds eps = odds eps * exp (- eps)).
  { rewrite <- odds_compl, exp_Ropp. unfold odds. field. lra. }
  assert (O2 : odds eps = (1 - odds eps) * exp eps).
  { rewrite <- odds_compl. unfold odds. field. lra. }
  rewrite (pos_eq (a * delta - b * 0)) by nra.
  rewrite (pos_0 (a * 0 - b * delta)) by nra.
  rewrite <- !pos_scal by (apply Rmult_le_pos; lra).
  replace (a * ((1 - delta) * odds eps) - b * ((1 - delta) * (1 - odds eps)))
    with ((1 - delta) * odds eps * (a - b * exp (- eps)))
    by (replace (b * ((1 - delta) * (1 - odds eps))) with (b * ((1 - delta) * (odds eps * exp (- eps)))) by (rewrite <- O1; reflexivity); ring).
  replace (a * ((1 - delta) * (1 - odds eps)) - b * ((1 - delta) * odds eps))
    with ((1 - delta) * (1 - odds eps) * (a - b * exp eps))
    by (replace (b * ((1 - delta) * odds eps)) with (b * ((1 - delta) * ((1 - odds eps) * exp eps))) by (rewrite <- O2; reflexivity); ring).
  lra.
Qed.
Lemma runs_valid E n : valid E -> valid (repeated E n).
Proof. intros V. induction n as [|n IH]; cbn [repeated]; [apply valid_silent | apply valid_seq; auto]. Qed.

Lemma runs_leaky eps delta k : 0 <= delta <= 1 -> forall a b, 0 <= a -> 0 <= b ->
  hs (repeated (leaky eps delta) k) a b = kcurve eps delta k a b.
Proof.
  intros Hd. induction k as [|k IH]; intros a b Ha Hb.
  - unfold hs, kcurve. cbn. rewrite Rmult_0_r, Ropp_0, exp_0, !Rmult_1_r. lra.
  - cbn [repeated]. rewrite hs_seq.
    destruct (runs_valid (leaky eps delta) k (leaky_valid eps delta Hd)) as (N & S1 & S2).
    rewrite (rsum_ext _ (fun o => delta * a * prP (repeated (leaky eps delta) k) o
      + (1 - delta) * odds eps * pos (a * prP (repeated (leaky eps delta) k) o - b * exp (- eps) * prQ (repeated (leaky eps delta) k) o)
      + (1 - delta) * (1 - odds eps) * pos (a * prP (repeated (leaky eps delta) k) o - b * exp eps * prQ (repeated (leaky eps delta) k) o))).
    2: { intros o Ho. destruct (N o Ho). rewrite leaky_hs by (try assumption; apply Rmult_le_pos; assumption).
         replace (b * prQ (repeated (leaky eps delta) k) o * exp (- eps)) with (b * exp (- eps) * prQ (repeated (leaky eps delta) k) o) by lra.
         replace (b * prQ (repeated (leaky eps delta) k) o * exp eps) with (b * exp eps * prQ (repeated (leaky eps delta) k) o) by lra. lra. }
    rewrite !rsum_plus, !rsum_scal, S1.
    pose proof (exp_pos eps). pose proof (exp_pos (- eps)).
    fold (hs (repeated (leaky eps delta) k) a (b * exp (- eps))). fold (hs (repeated (leaky eps delta) k) a (b * exp eps)).
    rewrite !IH by (try assumption; apply Rmult_le_pos; lra). unfold kcurve. cbn [walk pow].
    rewrite (walk_ext _ _ (fun x => pos (a - b * exp (- eps) * exp (- (eps * x)))) (fun x => pos (a - b * exp (- (eps * (x + 1)))))).
    2: { intros x. rewrite Rmult_assoc, <- exp_plus. do 4 f_equal. lra. }
    rewrite (walk_ext _ _ (fun x => pos (a - b * exp eps * exp (- (eps * x)))) (fun x => pos (a - b * exp (- (eps * (x - 1)))))).
    2: { intros x. rewrite Rmult_assoc, <- exp_plus. do 4 f_equal. lra. }
    lra.
Qed.
Lemma leaky_private eps delta : 0 <= eps -> 0 <= delta <= 1 -> private eps delta (leaky eps delta).
Proof.
  intros He Hd. split; [apply leaky_valid; assumption|].
  pose proof (odds_range eps). pose proof (exp_pos eps).
  assert (D : dp (leaky eps delta) eps delta).
  { apply dp_iff_hockey. rewrite hockey_hs, leaky_hs by (try assumption; lra).
    rewrite <- !exp_plus. replace (eps + - eps) with 0 by lra. rewrite exp_0.
    assert (1 <= exp (eps + eps)) by (rewrite <- exp_0; apply exp_le; lra).
    rewrite !pos_0 by lra. lra. }
  split; [exact D|]. intros S.
  specialize (D (fun o => S (match o with 0 => 3 | 1 => 2 | 2 => 1 | _ => 0 end)%nat)).
  unfold ProbP, ProbQ in *. cbn [swap leaky outs prP prQ filter] in *.
  destruct (S 0%nat), (S 1%nat), (S 2%nat), (S 3%nat); cbn [rsum] in *; lra.
Qed.

(** ** The formula of the code *)
Lemma fold_rsum (f : nat -> R) l : forall s, fold_left (fun d j => d + f j) l s = s + rsum f l.
Proof. induction l as [|x l IH]; intros s; cbn; [lra | rewrite IH; lra]. Qed.

Lemma seq_cut i n : (i <= n)%nat -> seq 0 n = seq 0 i ++ seq i (n - i).
Proof. intros H. replace n with (i + (n - i))%nat at 1 by lia. apply seq_app. Qed.

(** the gap function of grid point i *)
Definition gap_fn (eps y x : R) : R := 1 - exp (- (eps * pos (x - y))).
Lemma gap_fn_pos eps y x : 0 <= eps -> pos (1 - exp (eps * y) * exp (- (eps * x))) = gap_fn eps y x.
Proof.
  intros He. rewrite <- exp_plus. unfold gap_fn.
  destruct (Rle_dec y x) as [L|L].
  - rewrite (pos_eq (x - y)) by lra. replace (eps * y + - (eps * x)) with (- (eps * (x - y))) by lra.
    apply pos_eq. assert (exp (- (eps * (x - y))) <= exp 0) by (apply exp_le; nra). rewrite exp_0 in *. lra.
  - rewrite (pos_0 (x - y)) by lra. rewrite Rmult_0_r, Ropp_0, exp_0.
    assert (exp 0 <= exp (eps * y + - (eps * x))) by (apply exp_le; nra). rewrite exp_0 in *.
    rewrite pos_0 by lra. lra.
Qed.

Lemma delta_i_walk eps k i : 0 <= eps -> (0 <= k)%Z -> (2 * Z.of_nat i <= k)%Z ->
  delta_i eps k i = walk (odds eps) (Z.to_nat k) (gap_fn eps (IZR k - 2 * INR i)).
Proof.
  intros He Hk Hi. unfold delta_i. rewrite fold_rsum, Rplus_0_l.
  unfold odds. rewrite walk_closed. destruct (Rlt_dec 0 (exp eps)) as [_|N]; [|exfalso; apply N, exp_pos].
  unfold bsum. set (n := Z.to_nat k). assert (EK : IZR k = INR n) by (unfold n; rewrite INR_IZR_INZ, Z2Nat.id by lia; reflexivity).
  rewrite EK. rewrite (seq_cut i (S n)) by (unfold n; lia). rewrite rsum_app.
  rewrite (rsum_zero _ (seq i (S n - i))).
  2: { intros j Hj. apply in_seq in Hj. unfold gap_fn. rewrite pos_0.
       - rewrite Rmult_0_r, Ropp_0, exp_0. lra.
       - apply le_INR in Hj as HH || idtac. assert (INR i <= INR j) by (apply le_INR; lia). lra. }
  rewrite Rplus_0_r. unfold Rdiv. rewrite <- rsum_scal_r. apply rsum_ext. intros j Hj. apply in_seq in Hj.
  assert (J : INR j <= INR i) by (apply le_INR; lia).
  unfold gap_fn. rewrite pos_eq by lra.
  assert (P : exp eps ^ (n - j) = exp (eps * (INR n - INR j))).
  { rewrite <- exp_nat_mul, minus_INR by (unfold n in *; lia). f_equal. lra. }
  rewrite P.
  replace (exp (eps * (INR n - 2 * INR i + INR j)))
    with (exp (eps * (INR n - INR j)) * exp (- (eps * (INR n - 2 * INR j - (INR n - 2 * INR i))))).
  2: { rewrite <- exp_plus. f_equal. lra. }
  lra.
Qed.

Definition grid (eps : R) (k : Z) (i : nat) : R := eps * (IZR k - 2 * INR i).
Lemma kcurve_grid eps delta k i : 0 <= eps -> (0 <= k)%Z -> (2 * Z.of_nat i <= k)%Z ->
  kcurve eps delta (Z.to_nat k) 1 (exp (grid eps k i)) = 1 - (1 - delta) ^ Z.to_nat k * (1 - delta_i eps k i).
Proof.
  intros He Hk Hi. rewrite delta_i_walk by assumption. unfold kcurve, grid.
  rewrite (walk_ext _ _ _ (gap_fn eps (IZR k - 2 * INR i))).
  - lra.
  - intros x. apply gap_fn_pos, He.
Qed.

(** ** The loop *)
Definition passes (eps delta : R) (k : Z) (total : R) (i : nat) : Prop :=
  1 - (1 - delta) ^ Z.to_nat k * (1 - delta_i eps k i) <= total.
Lemma loop_some eps delta k total n e : advanced_loop eps delta k total n = Some e ->
  exists i, (i <= n)%nat /\ passes eps delta k total i /\ e = grid eps k i /\
    forall j, (i < j <= n)%nat -> ~ passes eps delta k total j.
Proof.
  induction n as [|n IH]; cbn [advanced_loop]; destruct (Rleb_spec (1 - (1 - delta) ^ Z.to_nat k * (1 - delta_i eps k 0)) total) as [P|P].
  1, 3: idtac.
  - intros [= <-]. exists 0%nat. repeat split; try lia; auto.
  - destruct (Rleb_spec (1 - (1 - delta) ^ Z.to_nat k * (1 - delta_i eps k (S n))) total) as [Q|Q].
    + intros [= <-]. exists (S n). repeat split; try lia; auto.
    + intros H. destruct (IH H) as (i & L & A & B & M). exists i. repeat split; auto; try lia.
      intros j Hj. destruct (Nat.eq_dec j (S n)) as [->|]; [exact Q | apply M; lia].
  - discriminate.
  - destruct (Rleb_spec (1 - (1 - delta) ^ Z.to_nat k * (1 - delta_i eps k (S n))) total) as [Q|Q].
    + intros [= <-]. exists (S n). repeat split; try lia; auto.
    + intros H. destruct (IH H) as (i & L & A & B & M). exists i. repeat split; auto; try lia.
      intros j Hj. destruct (Nat.eq_dec j (S n)) as [->|]; [exact Q | apply M; lia].
Qed.
Lemma loop_none eps delta k total n : advanced_loop eps delta k total n = None <->
  forall i, (i <= n)%nat -> ~ passes eps delta k total i.
Proof.
  induction n as [|n IH]; cbn [advanced_loop].
  - destruct (Rleb_spec (1 - (1 - delta) ^ Z.to_nat k * (1 - delta_i eps k 0)) total) as [P|P].
    + split; [discriminate|]. intros H. exfalso. apply (H 0%nat); [lia | exact P].
    + split; [|reflexivity]. intros _ i Hi. replace i with 0%nat by lia. exact P.
  - destruct (Rleb_spec (1 - (1 - delta) ^ Z.to_nat k * (1 - delta_i eps k (S n))) total) as [P|P].
    + split; [discriminate|]. intros H. exfalso. apply (H (S n)); [lia | exact P].
    + rewrite IH. split; intros H i Hi; [destruct (Nat.eq_dec i (S n)) as [->|]; [exact P | apply H; lia] | apply H; lia].
Qed.

Lemma params_inv eps delta pp : privacy_parameters eps delta = Ok pp -> pp = (eps, delta) /\ 0 <= eps /\ 0 <= delta <= 1.
Proof.
  unfold privacy_parameters. destruct (Rltb_spec eps 0); [discriminate|].
  destruct (Rltb_spec delta 0); [discriminate|]. destruct (Rltb_spec 1 delta); [discriminate|]. cbn.
  intros [= <-]. split; [reflexivity | lra].
Qed.
Lemma params_fwd eps delta : 0 <= eps -> 0 <= delta <= 1 -> privacy_parameters eps delta = Ok (eps, delta).
Proof. intros. unfold privacy_parameters. rewrite !Rltb_false by lra. reflexivity. Qed.

Lemma delta_i_0 eps k : delta_i eps k 0 = 0.
Proof. unfold delta_i. cbn. unfold Rdiv. lra. Qed.

Lemma half_ok k i : (0 <= k)%Z -> (i <= Z.to_nat (k / 2))%nat -> (2 * Z.of_nat i <= k)%Z.
Proof. intros Hk H. pose proof (Z.div_mod k 2 ltac:(lia)). pose proof (Z.mod_pos_bound k 2 ltac:(lia)). lia. Qed.
Lemma half_ok' k i : (0 <= k)%Z -> (2 * Z.of_nat i <= k)%Z -> (i <= Z.to_nat (k / 2))%nat.
Proof. intros Hk H. pose proof (Z.div_mod k 2 ltac:(lia)). pose proof (Z.mod_pos_bound k 2 ltac:(lia)). lia. Qed.

(** ** C29 *)
Lemma advanced_sound eps delta pp k total e E : privacy_parameters eps delta = Ok pp ->
  advanced_composition pp k total = Some e -> interaction (repeat (private eps delta) (Z.to_nat k)) E ->
  dp_both E e total.
Proof.
  intros HP H HI. destruct (params_inv _ _ _ HP) as (-> & He & Hd). unfold advanced_composition in H.
  destruct (Z.ltb_spec k 0); [discriminate|].
  destruct (loop_some _ _ _ _ _ _ H) as (i & Hi & P & -> & _). apply half_ok in Hi; [|lia].
  apply (advanced_dp eps delta (Z.to_nat k)); auto. rewrite kcurve_grid by (assumption || lia). exact P.
Qed.

Lemma runs_interaction (C : exper -> Prop) E n : C E -> interaction (repeat C n) (repeated E n).
Proof.
  intros H. induction n as [|n IH]; [constructor|]. change (repeat C (S n)) with (C :: repeat C n). rewrite repeat_cons.
  constructor; auto.
Qed.

Lemma dp_leaky_iff eps delta k e d : 0 <= delta <= 1 ->
  dp (repeated (leaky eps delta) k) e d <-> kcurve eps delta k 1 (exp e) <= d.
Proof.
  intros Hd. rewrite dp_iff_hockey, hockey_hs, runs_leaky by (try assumption; try lra; apply exp_pos_nonneg). reflexivity.
Qed.
Lemma kcurve_dec eps delta k e e' : 0 <= delta <= 1 -> e <= e' ->
  kcurve eps delta k 1 (exp e') <= kcurve eps delta k 1 (exp e).
Proof.
  intros Hd H. rewrite <- !runs_leaky by (try assumption; try lra; apply exp_pos_nonneg).
  apply hs_mono; [apply runs_valid, leaky_valid, Hd | apply exp_le, H].
Qed.

Lemma advanced_optimal eps delta pp k total e : privacy_parameters eps delta = Ok pp ->
  advanced_composition pp k total = Some e ->
  private eps delta (leaky eps delta) /\
  (exists i, (0 <= 2 * i <= k)%Z /\ e = eps * IZR (k - 2 * i)) /\
  (forall i, (0 <= 2 * i <= k)%Z -> dp (repeated (leaky eps delta) (Z.to_nat k)) (eps * IZR (k - 2 * i)) total ->
     e <= eps * IZR (k - 2 * i)) /\
  (forall e', 0 <= e' -> dp (repeated (leaky eps delta) (Z.to_nat k)) e' total -> e <= e' + 2 * eps).
Proof.
  intros HP H. destruct (params_inv _ _ _ HP) as (-> & He & Hd). unfold advanced_composition in H.
  destruct (Z.ltb_spec k 0); [discriminate|].
  destruct (loop_some _ _ _ _ _ _ H) as (i & Hi & P & -> & M).
  assert (G : forall j : nat, eps * IZR (k - 2 * Z.of_nat j) = grid eps k j).
  { intros j. unfold grid. rewrite minus_IZR, mult_IZR, INR_IZR_INZ. reflexivity. }
  split; [apply leaky_private; assumption|]. split; [|split].
  - exists (Z.of_nat i). rewrite G. apply half_ok in Hi; [|lia]. split; [lia | reflexivity].
  - intros j Hj D. replace j with (Z.of_nat (Z.to_nat j)) in * by lia. rewrite G in *.
    set (j' := Z.to_nat j) in *. rewrite dp_leaky_iff, kcurve_grid in D by (assumption || lia).
    destruct (le_lt_dec j' i) as [L|L].
    + unfold grid. apply Rmult_le_compat_l; [assumption|]. apply le_INR in L. lra.
    + exfalso. apply (M j'); [split; [assumption | apply half_ok'; lia] | exact D].
  - intros e' Hp D. destruct (Rle_dec (grid eps k i) (e' + 2 * eps)) as [|N]; [assumption|]. exfalso.
    assert (L : e' <= grid eps k (S i)) by (unfold grid in *; rewrite S_INR; lra).
    assert (K : (2 * Z.of_nat (S i) <= k)%Z).
    { apply half_ok in Hi; [|lia]. destruct (Z_le_gt_dec (2 * Z.of_nat (S i)) k) as [|B]; [assumption|]. exfalso.
      assert (IZR k <= IZR (2 * Z.of_nat i + 1)) by (apply IZR_le; lia).
      rewrite plus_IZR, mult_IZR, <- INR_IZR_INZ in *. unfold grid in *. nra. }
    apply (M (S i)); [split; [lia | apply half_ok'; lia]|]. unfold passes.
    rewrite <- kcurve_grid by (assumption || lia).
    apply dp_leaky_iff in D; [|assumption]. eapply Rle_trans; [apply kcurve_dec; eassumption | exact D].
Qed.

Lemma delta_i_nonneg eps k i : 0 <= eps -> (0 <= k)%Z -> (2 * Z.of_nat i <= k)%Z -> 0 <= delta_i eps k i.
Proof.
  intros He Hk Hi. rewrite delta_i_walk by assumption. rewrite <- (walk_const (odds eps) (Z.to_nat k) 0).
  apply walk_le; [pose proof (odds_range eps); lra|]. intros x. rewrite <- gap_fn_pos by assumption. apply pos_nonneg.
Qed.

Lemma advanced_none eps delta pp k total : privacy_parameters eps delta = Ok pp -> (0 <= k)%Z ->
  (advanced_composition pp k total = None <-> total < 1 - (1 - delta) ^ Z.to_nat k) /\
  (advanced_composition pp k total = None ->
     private eps delta (leaky eps delta) /\ forall e, ~ dp (repeated (leaky eps delta) (Z.to_nat k)) e total).
Proof.
  intros HP Hk. destruct (params_inv _ _ _ HP) as (-> & He & Hd). unfold advanced_composition.
  destruct (Z.ltb_spec k 0); [lia|].
  assert (K : advanced_loop eps delta k total (Z.to_nat (k / 2)) = None <-> total < 1 - (1 - delta) ^ Z.to_nat k).
  { rewrite loop_none. split.
    - intros H1. assert (N := H1 0%nat ltac:(lia)). unfold passes in N. rewrite delta_i_0 in N. lra.
    - intros L i Hi P. unfold passes in P. apply half_ok in Hi; [|lia].
      pose proof (delta_i_nonneg eps k i He Hk Hi). pose proof (pow_range (1 - delta) (Z.to_nat k) ltac:(lra)). nra. }
  split; [exact K|]. intros H1. apply K in H1. split; [apply leaky_private; assumption|].
  intros e D. apply dp_leaky_iff in D; [|assumption]. unfold kcurve in D.
  pose proof (odds_range eps). pose proof (pow_range (1 - delta) (Z.to_nat k) ltac:(lra)).
  assert (0 <= walk (odds eps) (Z.to_nat k) (fun x => pos (1 - exp e * exp (- (eps * x))))).
  { rewrite <- (walk_const (odds eps) (Z.to_nat k) 0). apply walk_le; [lra | intros; apply pos_nonneg]. }
  nra.
Qed.

(** ** C30 *)
Lemma delta_i_mono e e' k i : 0 <= e <= e' -> (0 <= k)%Z -> (2 * Z.of_nat i <= k)%Z -> delta_i e k i <= delta_i e' k i.
Proof.
  intros He Hk Hi. rewrite !delta_i_walk by (assumption || lra).
  pose proof (odds_range e). pose proof (odds_range e'). pose proof (odds_mono e e' ltac:(lra)).
  eapply Rle_trans; [apply (walk_mono _ (odds e')); try lra|].
  - intros x y L. unfold gap_fn.
    assert (pos (x - (IZR k - 2 * INR i)) <= pos (y - (IZR k - 2 * INR i))) by (apply pos_le; lra).
    pose proof (pos_nonneg (x - (IZR k - 2 * INR i))).
    assert (exp (- (e * pos (y - (IZR k - 2 * INR i)))) <= exp (- (e * pos (x - (IZR k - 2 * INR i))))) by (apply exp_le; nra). lra.
  - apply walk_le; [lra|]. intros x. unfold gap_fn. pose proof (pos_nonneg (x - (IZR k - 2 * INR i))).
    assert (exp (- (e' * pos (x - (IZR k - 2 * INR i)))) <= exp (- (e * pos (x - (IZR k - 2 * INR i))))) by (apply exp_le; nra). lra.
Qed.

Lemma total_eps_inv delta k total e v : total_epsilon_for delta k total (Fin e) = Ok v ->
  0 <= e /\ 0 <= delta <= 1 /\ exists t, v = Fin t /\ advanced_composition (e, delta) k total = Some t.
Proof.
  unfold total_epsilon_for. destruct (privacy_parameters e delta) as [pp|] eqn:HP; [|discriminate]. cbn [bind].
  destruct (params_inv _ _ _ HP) as (-> & A & B).
  destruct (advanced_composition (e, delta) k total) as [t|]; [|discriminate]. intros [= <-]. eauto.
Qed.
Lemma total_eps_mono delta k total : non_decreasing (total_epsilon_for delta k total).
Proof.
  intros x y v w L Hx Hy. destruct (total_eps_inv _ _ _ _ _ Hx) as (X & D & t & -> & A).
  destruct (total_eps_inv _ _ _ _ _ Hy) as (Y & _ & u & -> & B). cbn. apply Rleb_true.
  unfold advanced_composition in A, B. destruct (Z.ltb_spec k 0); [discriminate|].
  destruct (loop_some _ _ _ _ _ _ A) as (i & Hi & P & -> & M).
  destruct (loop_some _ _ _ _ _ _ B) as (j & Hj & Q & -> & _).
  apply half_ok in Hj as Hj2; [|lia]. apply half_ok in Hi as Hi2; [|lia].
  assert (Pj : passes x delta k total j).
  { unfold passes in *. pose proof (delta_i_mono x y k j ltac:(lra) ltac:(lia) Hj2).
    pose proof (pow_range (1 - delta) (Z.to_nat k) ltac:(lra)). nra. }
  assert (j <= i)%nat by (destruct (le_lt_dec j i); [assumption | exfalso; apply (M j); auto]).
  unfold grid. assert (INR j <= INR i) by (apply le_INR; assumption).
  assert (0 <= IZR k - 2 * INR i).
  { apply IZR_le in Hi2. rewrite mult_IZR, <- INR_IZR_INZ in Hi2. lra. }
  nra.
Qed.
Lemma pow_int_nat x n : (0 <= n)%Z -> pow_int x n = Ok (x ^ Z.to_nat n).
Proof. intros H. unfold pow_int. destruct (Z.ltb_spec n 0); [lia | reflexivity]. Qed.

Lemma smallest_epsilon_params te n : (1 <= n)%Z -> 0 <= te -> search_ok (te / IZR n) (Fin te) None (1 / 10 ^ 7) false.
Proof.
  intros Hn Ht. assert (1 <= IZR n) by (apply IZR_le; assumption). split; [|split; [|split]]; try discriminate; try exact Logic.I.
  - lra.
  - apply (Rmult_le_reg_r (IZR n)); [lra|]. unfold Rdiv. rewrite Rmult_assoc, Rinv_l by lra. nra.
Qed.

Lemma smallest_epsilon_sound fuel te td tp n delta x : privacy_parameters te td = Ok tp -> (1 <= n)%Z ->
  smallest_epsilon fuel tp n delta = Ok (Some x) ->
  exists e, x = Fin e /\ te / IZR n <= e <= te /\ 0 <= delta <= 1 /\
    (forall E, interaction (repeat (private e delta) (Z.to_nat n)) E -> dp_both E te td) /\
    (forall e', e + 1 / 10 ^ 7 < e' <= te ->
       exists t, advanced_composition (e', delta) n td = Some t /\ te < t).
Proof.
  intros HP Hn H. destruct (params_inv _ _ _ HP) as (-> & Ht & Htd). unfold smallest_epsilon in H.
  rewrite pow_int_nat in H by lia. cbn [bind] in H.
  destruct (Rltb_spec td (1 - (1 - delta) ^ Z.to_nat n)) as [|W]; [discriminate|].
  destruct (Z.eqb_spec n 0); [lia|].
  assert (NN : Fin te <> NaN) by discriminate.
  destruct (inverse_increasing _ _ _ _ _ _ _ _ _ (smallest_epsilon_params te n Hn Ht) NN H) as [_ S].
  destruct (S x eq_refl) as (e & -> & [R1 R2] & (v & Hv & M) & _ & B).
  exists e. split; [reflexivity|]. cbn in R2. destruct (Rleb_spec e te) as [R2'|]; [|discriminate].
  destruct (total_eps_inv _ _ _ _ _ Hv) as (X & D & t & -> & A). cbn in M.
  destruct (Rltb_spec te t) as [|T]; [discriminate|].
  split; [lra|]. split; [lra|]. split.
  - intros E HI. assert (Z := advanced_sound e delta (e, delta) n td t E (params_fwd e delta X D) A HI).
    destruct Z as [Z1 Z2].
    assert (Mono : forall F a b d, a <= b -> valid F -> dp F a d -> dp F b d).
    { intros F a b d L V Z S0. specialize (Z S0). pose proof (exp_le _ _ L).
      assert (0 <= ProbQ F S0) by (apply rsum_nonneg; intros o Ho; apply filter_In in Ho; apply V; apply Ho). nra. }
    assert (V : valid E) by (apply (advanced_bounds e delta _ E X D HI _ eq_refl)).
    split; [apply (Mono E t te td) | apply (Mono (swap E) t te td)]; try assumption; try lra. apply valid_swap, V.
  - intros e' L. destruct (advanced_composition (e', delta) n td) as [t'|] eqn:A'.
    + exists t'. split; [reflexivity|]. destruct (Rlt_dec te t') as [|N]; [assumption|]. exfalso.
      assert (K := B (total_eps_mono delta n td) e'). unfold tol_of in K.
      assert (e' <= e + 1 / 10 ^ 7); [apply K|lra].
      * split; [lra|]. cbn. apply Rleb_true. lra.
      * exists (Fin t'). split; [|cbn; apply Rltb_false; lra].
        unfold total_epsilon_for. rewrite params_fwd by lra. cbn [bind]. rewrite A'. reflexivity.
    + exfalso. destruct (advanced_none e' delta (e', delta) n td (params_fwd e' delta ltac:(lra) D) ltac:(lia)) as [K _].
      apply K in A'. lra.
Qed.

Lemma advanced_le e delta k total t : 0 <= e -> (0 <= k)%Z -> advanced_composition (e, delta) k total = Some t -> t <= e * IZR k.
Proof.
  intros He Hk A. unfold advanced_composition in A. destruct (Z.ltb_spec k 0); [discriminate|].
  destruct (loop_some _ _ _ _ _ _ A) as (i & Hi & P & -> & M). unfold grid.
  apply Rmult_le_compat_l; [assumption|]. pose proof (pos_INR i). lra.
Qed.
Lemma total_eps_defined delta n td e : (0 <= n)%Z -> 0 <= delta <= 1 -> 1 - (1 - delta) ^ Z.to_nat n <= td -> 0 <= e ->
  exists t, total_epsilon_for delta n td (Fin e) = Ok (Fin t) /\ advanced_composition (e, delta) n td = Some t.
Proof.
  intros Hn Hd W He. unfold total_epsilon_for. rewrite params_fwd by assumption. cbn [bind].
  destruct (advanced_composition (e, delta) n td) as [t|] eqn:A; [eauto|]. exfalso.
  destruct (advanced_none e delta (e, delta) n td (params_fwd e delta He Hd) Hn) as [K _]. apply K in A. lra.
Qed.

Lemma smallest_epsilon_none fuel te td tp n delta : privacy_parameters te td = Ok tp -> (1 <= n)%Z -> 0 <= delta <= 1 ->
  smallest_epsilon fuel tp n delta = Ok None ->
  td < 1 - (1 - delta) ^ Z.to_nat n /\
  forall e, 0 <= e -> private e delta (leaky e delta) /\ ~ dp (repeated (leaky e delta) (Z.to_nat n)) te td.
Proof.
  intros HP Hn Hd H. destruct (params_inv _ _ _ HP) as (-> & Ht & Htd). unfold smallest_epsilon in H.
  rewrite pow_int_nat in H by lia. cbn [bind] in H.
  destruct (Rltb_spec td (1 - (1 - delta) ^ Z.to_nat n)) as [W|W].
  - split; [assumption|]. intros e He.
    destruct (advanced_none e delta (e, delta) n td (params_fwd e delta He Hd) ltac:(lia)) as [K1 K2].
    apply K1 in W. destruct (K2 W) as [K3 K4]. split; [exact K3 | apply K4].
  - exfalso. destruct (Z.eqb_spec n 0); [lia|]. unfold inverse_monotone_function in H. cbn [sp_lower sp_upper xeqb sp_guess] in H.
    assert (1 <= IZR n) by (apply IZR_le; assumption).
    assert (E0 : 0 <= te / IZR n) by (apply Rmult_le_pos; [assumption | left; apply Rinv_0_lt_compat; lra]).
    destruct (total_eps_defined delta n td (te / IZR n) ltac:(lia) Hd ltac:(lra) E0) as (t & T1 & T2).
    rewrite T1 in H. cbn [bind xltb] in H. apply advanced_le in T2; [|assumption|lia].
    replace (te / IZR n * IZR n) with te in T2 by (field; lra). rewrite Rltb_false in H by lra.
    cbn [bind fst snd] in H. apply bind_Ok in H. destruct H as (r & _ & H). discriminate.
Qed.

Lemma smallest_epsilon_returns te td tp n delta : privacy_parameters te td = Ok tp -> (1 <= n)%Z -> 0 <= delta <= 1 ->
  exists N, forall fuel, (N < fuel)%nat -> exists r, smallest_epsilon fuel tp n delta = Ok r.
Proof.
  intros HP Hn Hd. destruct (params_inv _ _ _ HP) as (-> & Ht & Htd). unfold smallest_epsilon.
  rewrite pow_int_nat by lia. cbn [bind].
  destruct (Rltb_spec td (1 - (1 - delta) ^ Z.to_nat n)) as [W|W]; [exists 0%nat; eauto|].
  destruct (Z.eqb_spec n 0); [lia|].
  assert (1 <= IZR n) by (apply IZR_le; assumption).
  assert (E0 : 0 <= te / IZR n) by (apply Rmult_le_pos; [assumption | left; apply Rinv_0_lt_compat; lra]).
  apply (inverse_terminates (total_epsilon_for delta n td) (Fin te) true (te / IZR n) (Fin te) None (1 / 10 ^ 7) false).
  - apply smallest_epsilon_params; assumption.
  - lra.
  - intros x [X _]. destruct (total_eps_defined delta n td x ltac:(lia) Hd ltac:(lra) ltac:(lra)) as (t & T & _). eauto.
  - discriminate.
Qed.
