(** Correctness of the log-space helpers. *)
From Verif Require Import Base XReal Exn ModelMake ModelRdp ModelLog ProofRdpMath.
Local Arguments Rltb : simpl never.
Local Arguments Rleb : simpl never.
Local Arguments Reqb : simpl never.

Lemma np_log_pos x : 0 < x -> np_log (Fin x) = Fin (ln x).
Proof. intros H. cbn. rewrite Rltb_true by assumption. reflexivity. Qed.
Lemma np_log_0 : np_log (Fin 0) = MInf.
Proof. cbn. rewrite Rltb_false, Reqb_refl by lra. reflexivity. Qed.

Lemma ln_add_exp x y : ln (exp x + exp y) = y + ln (1 + exp (x - y)).
Proof.
  assert (E : exp x + exp y = exp y * (1 + exp (x - y))).
  { rewrite Rmult_plus_distr_l, <- exp_plus. replace (y + (x - y)) with x by ring. ring. }
  rewrite E, ln_mult, ln_exp; [reflexivity | apply exp_pos|]. pose proof (exp_pos (x - y)). lra.
Qed.

Lemma c_log_add_fin x y : c_log_add (Fin x) (Fin y) = Fin (ln (exp x + exp y)).
Proof.
  unfold c_log_add, pymin, pymax, np_log1p. cbn [xltb].
  assert (P : forall z, 0 < 1 + exp z) by (intros z; pose proof (exp_pos z); lra).
  destruct (Rltb_spec y x) as [H|H], (Rltb_spec x y) as [H'|H']; try lra; cbn [xsub xneg xadd xexp];
    rewrite np_log_pos by apply P; cbn [xadd]; f_equal.
  - rewrite (Rplus_comm (exp x)), ln_add_exp. reflexivity.
  - rewrite ln_add_exp. reflexivity.
  - assert (x = y) by lra. subst. rewrite ln_add_exp. reflexivity.
Qed.
Lemma c_log_add_minf x : c_log_add MInf (Fin x) = Fin x /\ c_log_add (Fin x) MInf = Fin x.
Proof.
  unfold c_log_add, pymin, pymax, np_log1p. cbn. rewrite Rplus_0_r, Rltb_true by lra. rewrite ln_1.
  split; cbn; f_equal; ring.
Qed.
Lemma c_log_add_pinf x : c_log_add PInf (Fin x) = PInf /\ c_log_add (Fin x) PInf = PInf.
Proof.
  unfold c_log_add, pymin, pymax, np_log1p. cbn. rewrite Rplus_0_r, Rltb_true by lra. split; reflexivity.
Qed.
Lemma c_log_add_both : c_log_add MInf MInf = NaN.
Proof. reflexivity. Qed.

Lemma ln_sub_exp x y : y < x -> ln (exp x - exp y) = x + ln (1 + - exp (y - x)).
Proof.
  intros H. assert (E : exp x - exp y = exp x * (1 + - exp (y - x))).
  { rewrite Rmult_plus_distr_l, <- Ropp_mult_distr_r, <- exp_plus. replace (x + (y - x)) with y by ring. ring. }
  assert (exp (y - x) < 1) by (rewrite <- exp_0; apply exp_increasing; lra).
  rewrite E, ln_mult, ln_exp; [reflexivity | apply exp_pos | lra].
Qed.
Lemma c_log_sub_fin x y : c_log_sub (Fin x) (Fin y) =
  if Rltb y x then Ok (Fin (ln (exp x - exp y))) else Err ValueError.
Proof.
  unfold c_log_sub. cbn [xleb]. destruct (Rltb_spec y x) as [H|H].
  - rewrite Rleb_false by lra. unfold np_log1p. cbn [xsub xneg xadd xexp].
    assert (exp (y + - x) < 1) by (rewrite <- exp_0; apply exp_increasing; lra).
    rewrite np_log_pos by lra. cbn [xadd]. rewrite ln_sub_exp by assumption. reflexivity.
  - rewrite Rleb_true by lra. reflexivity.
Qed.
Lemma c_log_sub_minf x : c_log_sub (Fin x) MInf = Ok (Fin x) /\ c_log_sub PInf (Fin x) = Ok PInf /\
  c_log_sub MInf (Fin x) = Err ValueError /\ c_log_sub (Fin x) PInf = Err ValueError /\
  c_log_sub MInf MInf = Err ValueError /\ c_log_sub PInf PInf = Err ValueError.
Proof.
  unfold c_log_sub, np_log1p. cbn. rewrite Ropp_0, Rplus_0_r, Rltb_true by lra. rewrite ln_1. cbn.
  rewrite Rplus_0_r. repeat split.
Qed.

Lemma log_abc_pos a b c : 0 < a * exp b + c -> log_abc a (Fin b) c = Ok (Fin (ln (a * exp b + c))).
Proof.
  intros H. unfold log_abc. pose proof (exp_pos b) as Eb. destruct (Reqb_spec a 0) as [->|Na].
  - rewrite Rmult_0_l, Rplus_0_l in *. rewrite np_log_pos by assumption. reflexivity.
  - destruct (Rltb_spec a 0) as [Ha|Ha].
    + assert (Hc : 0 < c) by nra. rewrite Rleb_false by lra. rewrite !np_log_pos by lra. cbn [xadd].
      rewrite c_log_sub_fin. rewrite exp_plus, !exp_ln by lra.
      rewrite Rltb_true.
      * do 3 f_equal. ring.
      * apply exp_lt_inv. rewrite exp_plus, !exp_ln by lra. lra.
    + cbn [xeqb]. destruct (Reqb_spec b 0) as [->|Nb].
      * rewrite exp_0, Rmult_1_r in *. rewrite np_log_pos by assumption. reflexivity.
      * rewrite np_log_pos by lra. cbn [xadd]. destruct (Reqb_spec c 0) as [->|Nc].
        { do 2 f_equal. rewrite Rplus_0_r, ln_mult, ln_exp by lra. ring. }
        destruct (Rltb_spec c 0) as [Hc|Hc].
        { rewrite np_log_pos by lra. rewrite c_log_sub_fin, exp_plus, !exp_ln by lra. rewrite Rltb_true.
          - do 3 f_equal. ring.
          - apply exp_lt_inv. rewrite exp_plus, !exp_ln by lra. lra. }
        rewrite np_log_pos by lra. rewrite c_log_add_fin, exp_plus, !exp_ln by lra. do 3 f_equal. ring.
Qed.

Lemma log_abc_neg a b c : a * exp b + c <= 0 ->
  log_abc a (Fin b) c =
  if (Reqb a 0 || (Rltb 0 a && Reqb b 0))%bool
  then Ok (if Reqb (a * exp b + c) 0 then MInf else NaN) else Err ValueError.
Proof.
  intros H. unfold log_abc. pose proof (exp_pos b) as Eb. destruct (Reqb_spec a 0) as [->|Na]; cbn [orb].
  - rewrite Rmult_0_l, Rplus_0_l in *. cbn. rewrite Rltb_false by lra. reflexivity.
  - destruct (Rltb_spec a 0) as [Ha|Ha].
    + rewrite (Rltb_false 0 a) by lra. cbn [andb]. destruct (Rleb_spec c 0) as [|Hc]; [reflexivity|].
      rewrite !np_log_pos by lra. cbn [xadd]. rewrite c_log_sub_fin. rewrite Rltb_false; [reflexivity|].
      apply Rnot_lt_le. intros L. apply exp_increasing in L. rewrite exp_plus, !exp_ln in L by lra. lra.
    + rewrite (Rltb_true 0 a) by lra. cbn [xeqb andb]. destruct (Reqb_spec b 0) as [->|Nb].
      * rewrite exp_0, Rmult_1_r in *. cbn. rewrite Rltb_false by lra. reflexivity.
      * rewrite np_log_pos by lra. cbn [xadd]. assert (P : 0 < a * exp b) by (apply Rmult_lt_0_compat; lra).
        rewrite Reqb_false by lra. rewrite Rltb_true by lra. rewrite np_log_pos by lra.
        rewrite c_log_sub_fin, Rltb_false; [reflexivity|].
        apply Rnot_lt_le. intros L. apply exp_increasing in L. rewrite exp_plus, !exp_ln in L by lra. lra.
Qed.

(** The limits for infinite exponents. *)
Lemma log_abc_pinf a c : log_abc a PInf c =
  if Rltb 0 a then Ok PInf else if Reqb a 0 then Ok (np_log (Fin c)) else Err ValueError.
Proof.
  unfold log_abc. destruct (Rltb_spec 0 a) as [Ha|Ha]; destruct (Reqb_spec a 0) as [Z|Na]; try lra; try reflexivity.
  - rewrite Rltb_false by lra. cbn [xeqb]. rewrite np_log_pos by lra. cbn [xadd].
    destruct (Reqb_spec c 0); [reflexivity|]. destruct (Rltb_spec c 0).
    + rewrite np_log_pos by lra. solve [apply c_log_sub_minf; exact 0 | apply c_log_sub_minf].
    + rewrite np_log_pos by lra. f_equal. apply c_log_add_pinf.
  - rewrite Rltb_true by lra. destruct (Rleb_spec c 0); [reflexivity|]. rewrite !np_log_pos by lra. cbn [xadd].
    solve [apply c_log_sub_minf; exact 0 | apply c_log_sub_minf].
Qed.
Lemma log_abc_minf a c : a <> 0 -> log_abc a MInf c =
  if Rltb 0 c then Ok (Fin (ln c)) else if (Reqb c 0 && Rltb 0 a)%bool then Ok MInf else Err ValueError.
Proof.
  intros Na. unfold log_abc. rewrite Reqb_false by assumption.
  destruct (Rltb_spec a 0) as [Ha|Ha].
  - rewrite (Rltb_false 0 a) by lra. rewrite andb_false_r.
    destruct (Rleb_spec c 0), (Rltb_spec 0 c); try lra; [reflexivity|]. rewrite !np_log_pos by lra. cbn [xadd].
    solve [apply c_log_sub_minf; exact 0 | apply c_log_sub_minf].
  - rewrite (Rltb_true 0 a) by lra. rewrite andb_true_r. cbn [xeqb]. rewrite np_log_pos by lra. cbn [xadd].
    destruct (Reqb_spec c 0) as [->|Nc]; [rewrite Rltb_false by lra; reflexivity|].
    destruct (Rltb_spec c 0), (Rltb_spec 0 c); try lra; rewrite np_log_pos by lra.
    + solve [apply c_log_sub_minf; exact 0 | apply c_log_sub_minf].
    + f_equal. apply c_log_add_minf.
Qed.
