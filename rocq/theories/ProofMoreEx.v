(** Concrete cases for properties of the accountants, of the RDP formulas and of the audit. *)
From Verif Require Import Base XReal Exn PyDict ModelCommon SpecDP SpecRenyi SpecRdp SpecMake TypesEvent TypesRelation ModelMake ModelRdp ModelLog
  ModelBuilder ModelPmf ModelPld ModelAccountant SpecAccountant ProofDP
  ProofConv ProofMono ProofGamma ProofLog ProofRdpMath ProofRdpEx ProofPldApi ProofDots ProofMakeEx
  ProofAccGen ProofAccRdp ProofAccEx.
Local Arguments Rltb : simpl never.
Local Arguments Rleb : simpl never.
Local Arguments Reqb : simpl never.

(** A supported and an unsupported composition, on accountants with any history. *)
Lemma supports_example frac fuel A gaussian_pld laplace_pld mixture_pld fast_len disc tail B :
  let rr := Composed [Gaussian (PyFloat 1); RandResp (PyFloat (1/2)) 2] in
  let rdp := rdp_mc frac fuel ADD_OR_REMOVE_ONE [Fin 2] in
  let pld rel := pld_mc gaussian_pld laplace_pld mixture_pld fast_len rel disc tail in
  snd (acc_supports rdp A (Composed [Gaussian (PyFloat 1); NoOp])) = Ok true /\
  snd (acc_supports rdp A rr) = Ok false /\
  snd (acc_supports (pld REPLACE_ONE) B rr) = Ok true /\
  snd (acc_supports (pld ADD_OR_REMOVE_ONE) B rr) = Ok false.
Proof. repeat split; reflexivity. Qed.
Lemma clean_example : constructors_clean (fun _ _ => Err ValueError) (fun _ _ => Err ValueError) (fun _ _ _ => Err ValueError).
Proof. repeat split; discriminate. Qed.

(** Monotonicity: the values of two RDP vectors at order 2. *)
Lemma mono_value d r : 0 < d < 1/2 -> 1 <= r -> d * d + (exp (- r) - 1) <= 0 -> 0 <= r + ln (1 - / 2) - ln (d * 2) ->
  compute_epsilon [Fin 2] [Fin r] d = Ok (Fin (r + ln (1 - / 2) - ln (d * 2)), Fin 2).
Proof.
  intros Hd Hr He P. unfold compute_epsilon. rewrite Rltb_false, Reqb_false by lra.
  cbn [length Nat.eqb negb combine map_res fst snd bind xltb]. rewrite Rltb_false by lra. cbn [bind argmin argmin_from fst snd].
  rewrite eps_of_order_Fin by lra. rewrite (Rltb_false r 0) by lra. rewrite (Rltb_false 0), (Rltb_true (101/100) 2); try lra.
  unfold pymax. cbn [xltb].
  replace (r + ln (1 - / 2) - ln (d * 2) / (2 - 1)) with (r + ln (1 - / 2) - ln (d * 2)) by field.
  destruct (Rltb_spec 0 (r + ln (1 - / 2) - ln (d * 2))); [reflexivity|].
  do 3 f_equal. lra.
Qed.
Lemma mono_example : real_orders [Fin 2] /\ vec_pos [Fin 1] /\ vec_le [Fin 1] [Fin 2] /\
  exists e1 e2 e3, compute_epsilon [Fin 2] [Fin 1] (1/10) = Ok (Fin e1, Fin 2) /\
    compute_epsilon [Fin 2] [Fin 2] (1/10) = Ok (Fin e2, Fin 2) /\
    compute_epsilon [Fin 2] [Fin 1] (1/5) = Ok (Fin e3, Fin 2) /\ e3 < e1 < e2.
Proof.
  split; [intros a [ <- |[]]; exists 2; reflexivity|].
  split; [constructor; [unfold xpos; cbn [xleb]; apply Rleb_true; lra | constructor]|].
  split; [constructor; [cbn [xleb]; apply Rleb_true; lra | constructor]|].
  pose proof exp1_gt2. assert (X : exp (- (1)) < / 2) by (rewrite (exp_Ropp 1); apply Rinv_lt_contravar; lra).
  assert (X2 : exp (- (2)) <= exp (- (1))) by (apply Rlt_le, exp_increasing; lra).
  assert (L1 : ln (1/5 * 2) < ln (1 - / 2)) by (apply ln_increasing; lra).
  assert (L2 : ln (1/10 * 2) < ln (1/5 * 2)) by (apply ln_increasing; lra).
  do 3 eexists. split; [apply mono_value; lra|]. split; [apply mono_value; lra|]. split; [apply mono_value; lra|]. lra.
Qed.

Lemma history_example frac fuel rel : exists e1 n1 e2 n2 A1 A2,
  runs (rdp_mc frac fuel rel [Fin 2]) (rdp_new [Fin 2]) [(e1, n1)] A1 /\
  runs (rdp_mc frac fuel rel [Fin 2]) A1 [(e2, n2)] A2 /\
  pos_history ([(e1, n1)] ++ [(e2, n2)]) /\ Forall (fun en => finite_means (fst en)) ([(e1, n1)] ++ [(e2, n2)]) /\
  orders_above_one [Fin 2] /\ acc_state A2 = [Fin 7].
Proof.
  destruct (gaussians_run frac fuel rel) as (A & HA & E). destruct gaussians_ok as (P & _ & F & _).
  inversion HA; subst. do 4 eexists. exists A1, A. split; [eapply runs_cons; [eassumption | apply runs_nil]|].
  split; [eassumption|]. split; [exact P|]. split; [exact F|]. split; [|exact E].
  intros a [ <- |[]]. exists 2. split; [reflexivity | lra].
Qed.
Lemma frac_example : moments_at_least_one (fun _ _ _ => Fin 0).
Proof. intros q s a _ _ _. cbn [xleb]. apply Rleb_true. lra. Qed.

(** Forward differences of 1, 2, 4, 8, ...: every one at 0 is 1. *)
Lemma diffs_example : let fn := fun i => INR (S i) * ln 2 in
  forall k, (k < 3)%nat -> fdiff (fun i => match i with O => 1 | S i => exp (fn i) end) (k + 1) 0 = 1.
Proof.
  cbv zeta. assert (E : forall i, exp (INR (S i) * ln 2) = 2 ^ S i).
  { intros i. rewrite <- Rpower_pow by lra. reflexivity. }
  intros [|[|[|k]]] H; try lia; cbn [Nat.add fdiff]; rewrite !E; cbn [pow]; ring.
Qed.

(** A result for an infinite order. *)
Lemma inf_delta_example : rdp_curve [PInf; Fin 2] [Fin 1; Fin 1] coin /\ good_orders [Fin 2] /\
  exists d o, compute_delta [PInf; Fin 2] [Fin 1; Fin 1] (Fin 2) = Ok (d, o).
Proof.
  destruct coin_curve as (V & L & B). split; [|split].
  - split; [exact V|]. split; [reflexivity|]. intros a r [[= <- <-]|[[= <- <-]|[]]]; apply B; cbn; tauto.
  - intros a [ <- |[]]. exists 2. left. reflexivity.
  - apply delta_total; [lra | discriminate | reflexivity|].
    intros a [ <- |[ <- |[]]]; cbn [xltb]; [reflexivity | apply Rltb_false; lra].
Qed.

(** The mean of the geometric distribution with success probability 1/2 is 2; a search. *)
Lemma gamma_example : tnb_mean (1/2) 1 = Ok (1 / (1/2)) /\ tnb_true_mean (1/2) 1 = 2 /\
  exists fuel g, gamma_tnb fuel (1/2) (Fin 3) (1/1000) = Ok g.
Proof.
  split; [|split].
  - unfold tnb_mean. rewrite Rltb_false, Rleb_false, Rltb_false, Reqb_true by lra. reflexivity.
  - unfold tnb_true_mean. rewrite Reqb_false by lra. rewrite Rpower_1 by lra. field.
  - apply gamma_terminates; lra.
Qed.
Lemma abc_example : 0 < 2 * exp 1 + -1.
Proof. pose proof exp1_gt2. lra. Qed.

(** Three points of the curve of a bit, on both functions. *)
Lemma fixed_gap_example : exists p,
  connect_dots_fixed_gap (1/10) (-1) 1 (map (fun z => hs bit 1 (exp (IZR z * (1/10)))) [(-1)%Z; 0%Z; 1%Z]) = Ok p.
Proof.
  rewrite fixed_gap_eq by lra. change (zrange (-1) (Z.to_nat (1 - -1 + 1))) with [(-1)%Z; 0%Z; 1%Z].
  apply dots_total; [lra | apply exper_curve, bit_dp | discriminate |]. repeat constructor; lia.
Qed.
