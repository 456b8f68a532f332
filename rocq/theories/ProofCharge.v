(** The charges of the RDP accountant are not negative. *)
From Verif Require Import Base XReal Exn SpecRdp TypesEvent TypesRelation SpecDP SpecRenyi ModelMake SpecMake ModelRdp ProofRR ProofRenyi ProofConv ProofMono
  ProofRRRdp ProofRdpMath ProofPoisson ProofTaylor ProofGamma ModelAccountant SpecAccountant.
Local Arguments Rltb : simpl never.
Local Arguments Rleb : simpl never.
Local Arguments Reqb : simpl never.

Lemma xpos_add x y : xpos x -> xpos y -> xpos (xadd x y).
Proof.
  destruct x, y; intros H1 H2; try discriminate; try reflexivity. apply xpos_Fin in H1. apply xpos_Fin in H2.
  cbn [xadd]. apply xpos_Fin. lra.
Qed.
Lemma xpos_mul n x : 0 < n -> xpos x -> xpos (xmul (Fin n) x).
Proof.
  intros N. destruct x; intros H; try discriminate.
  - apply xpos_Fin in H. cbn [xmul]. apply xpos_Fin. nra.
  - cbn. unfold inf_times. rewrite Rltb_true by assumption. reflexivity.
Qed.
Lemma xpos_cases x : xpos x -> x = PInf \/ exists r, x = Fin r /\ 0 <= r.
Proof. destruct x; intros H; try discriminate; [right | left; reflexivity]. exists r. split; [reflexivity | apply xpos_Fin, H]. Qed.
Lemma xpos_div x y : xpos x -> 0 < y -> xpos (xdiv x (Fin y)).
Proof.
  intros H Hy. destruct (xpos_cases x H) as [->|(r & -> & Hr)].
  - cbn. rewrite Rltb_false by lra. reflexivity.
  - cbn [xdiv]. rewrite Reqb_false by lra. apply xpos_Fin. apply Rmult_le_pos; [assumption | left; apply Rinv_0_lt_compat, Hy].
Qed.

Lemma gauss_pos a sigma : 1 < a -> xltb sigma (Fin 0) = false -> xltb (Fin 0) sigma = true -> xpos (xdiv (Fin a) (two_var sigma)).
Proof.
  intros Ha H1 H2. unfold two_var. destruct sigma as [s| | |]; try discriminate.
  - cbn [xltb] in H2. destruct (Rltb_spec 0 s); [|discriminate]. cbn [xmul]. apply xpos_div; [apply xpos_Fin; lra | nra].
  - cbn. unfold inf_times. rewrite Rltb_true by lra. cbn. apply Rleb_true. lra.
Qed.

Lemma lmin_pos x y : 0 <= x -> 0 <= y -> 0 <= Rmin x y.
Proof. intros. apply Rmin_glb; assumption. Qed.

Section Poisson.
  Context (frac : R -> xr -> xr -> xr) (HF : moments_at_least_one frac).
  Lemma poisson_order_pos q sigma a : 0 <= q <= 1 -> xltb sigma (Fin 0) = false -> sigma <> NaN -> sigma <> MInf -> 1 < a ->
    xpos (poisson_order frac q sigma (Fin a)).
  Proof.
    intros Hq S1 S2 S3 Ha. unfold poisson_order. destruct (Reqb_spec q 0); [apply xpos_Fin; lra|].
    cbn [isinf orb]. destruct (xeqb sigma (Fin 0)) eqn:E; [reflexivity|].
    assert (SP : xltb (Fin 0) sigma = true).
    { destruct sigma as [s| | |]; try congruence; [|reflexivity]. cbn [xltb xeqb] in *.
      destruct (Rltb_spec s 0); [discriminate|]. destruct (Reqb_spec s 0); [discriminate|]. apply Rltb_true. lra. }
    destruct (Reqb_spec q 1); [apply gauss_pos; assumption|].
    assert (L : xpos (log_a frac q sigma (Fin a))).
    { unfold log_a. destruct (is_integer a) eqn:I; [|apply HF; [lra | assumption | assumption]].
      assert (F : (0 <= Rfloor a)%Z) by (apply Rfloor_le_iff; lra).
      destruct (log_a_int_val q sigma (Rfloor a) ltac:(lra) F) as [-> B]. cbn [xr_of_logp]. apply xpos_Fin.
      rewrite <- ln_1. apply ln_le_mono; lra. }
    unfold xsub. cbn [xneg xadd]. apply xpos_div; [assumption | lra].
  Qed.
  Lemma poisson_pos q sg orders v : (sg = SComplex \/ exists n, sg = SNum (nval n)) -> orders_above_one orders ->
    rdp_poisson_gaussian frac q sg orders = Ok v -> vec_pos v.
  Proof.
    intros N O H. unfold rdp_poisson_gaussian in H. destruct q as [q| | |]; try discriminate.
    destruct (Rleb_spec 0 q); [|discriminate]. destruct (Rleb_spec q 1); [|discriminate]. cbn [andb negb] in H.
    destruct N as [->|(n & ->)]; [discriminate|]. destruct (xltb (nval n) (Fin 0)) eqn:E; [discriminate|]. injection H as <-.
    apply Forall_forall. intros x. rewrite in_map_iff. intros (a & <- & I). destruct (O a I) as (y & -> & Hy).
    apply poisson_order_pos; try assumption; try lra; destruct n; discriminate.
  Qed.
End Poisson.

(** Laplace *)
Lemma laplace_core eps a : 0 <= eps -> 1 < a ->
  0 <= (a - 1) * (1 - exp (eps * (1 - 2 * a))) / (2 * a - 1) < 1 /\
  0 <= eps + ln (1 - (a - 1) * (1 - exp (eps * (1 - 2 * a))) / (2 * a - 1)) / (a - 1).
Proof.
  intros He Ha. set (E := exp (eps * (1 - 2 * a))). set (l := (a - 1) / (2 * a - 1)).
  assert (E0 : 0 < E) by apply exp_pos.
  assert (E1 : E <= 1) by (unfold E; eapply Rle_trans; [apply (exp_le _ 0); nra | rewrite exp_0; lra]).
  assert (L0 : 0 < l) by (apply Rdiv_lt_0_compat; lra).
  assert (L1 : l < 1) by (unfold l; apply (Rmult_lt_reg_r (2 * a - 1)); [lra|]; unfold Rdiv; rewrite Rmult_assoc, Rinv_l by lra; lra).
  replace ((a - 1) * (1 - E) / (2 * a - 1)) with (l * (1 - E)) by (unfold l; field; lra).
  split; [split; [apply Rmult_le_pos; lra | nra]|].
  assert (C : exp (- eps * (a - 1)) <= 1 - l * (1 - E)).
  { pose proof (exp_convex l (eps * (1 - 2 * a)) 0 ltac:(lra)) as X. rewrite exp_0 in X. fold E in X.
    replace (l * (eps * (1 - 2 * a)) + (1 - l) * 0) with (- eps * (a - 1)) in X by (unfold l; field; lra). lra. }
  apply ln_le_mono in C; [|apply exp_pos]. rewrite ln_exp in C.
  apply (Rmult_le_reg_r (a - 1)); [lra|]. rewrite Rmult_0_l, Rmult_plus_distr_r. unfold Rdiv. rewrite Rmult_assoc, Rinv_l, Rmult_1_r by lra. lra.
Qed.
Lemma laplace_taylor n eps a : 0 <= eps -> 1 < a ->
  0 <= eps + (exp (eps * (1 - 2 * a)) - 1) / (2 * a - 1) *
             log_series n (- ((exp (eps * (1 - 2 * a)) - 1) / (2 * a - 1)) * (a - 1)).
Proof.
  intros He Ha. destruct (laplace_core eps a He Ha) as [[V0 V1] C].
  set (E := exp (eps * (1 - 2 * a))) in *. set (v := (a - 1) * (1 - E) / (2 * a - 1)) in *.
  replace (- ((E - 1) / (2 * a - 1)) * (a - 1)) with v by (unfold v; field; lra).
  pose proof (log_series_le n v ltac:(lra)) as S. set (t := log_series n v) in *.
  replace ((E - 1) / (2 * a - 1) * t) with (- (v * t) / (a - 1)) by (unfold v; field; lra).
  eapply Rle_trans; [exact C|]. apply Rplus_le_compat_l. apply Rmult_le_compat_r; [left; apply Rinv_0_lt_compat; lra | lra].
Qed.
Lemma laplace_order_pos eps a r : 1 < a -> laplace_rdp eps (Fin a) = Ok r -> xpos r.
Proof.
  intros Ha H. unfold laplace_rdp in H. destruct (Rltb_spec eps 0) as [|He]; [discriminate|]. assert (He' : 0 <= eps) by lra.
  rewrite Rltb_false, Reqb_false in H by lra.
  destruct (Rltb a (11 / 10)); injection H as <-; apply xpos_Fin.
  - exact (laplace_taylor 99 eps a He' Ha).
  - destruct (laplace_core eps a He' Ha) as [_ C]. set (E := exp (eps * (1 - 2 * a))) in *.
    replace (1 + (a - 1) * (E - 1) / (2 * a - 1)) with (1 - (a - 1) * (1 - E) / (2 * a - 1)) by (field; lra). exact C.
Qed.
Lemma map_res_pos f orders v : orders_above_one orders -> (forall a r, 1 < a -> f (Fin a) = Ok r -> xpos r) ->
  map_res f orders = Ok v -> vec_pos v.
Proof.
  intros O F H. apply map_res_ok in H. induction H as [|a r orders v Ha _ IH]; [constructor|]. constructor.
  - destruct (O a (or_introl eq_refl)) as (x & -> & Hx). exact (F x r Hx Ha).
  - apply IH. intros b I. apply O. right. exact I.
Qed.
Lemma laplace_pos eps orders v : orders_above_one orders -> map_res (laplace_rdp eps) orders = Ok v -> vec_pos v.
Proof. intros O. apply map_res_pos; [assumption|]. intros a r. apply laplace_order_pos. Qed.

(** Randomised response *)
Lemma rr_pos p k orders rel v : rel <> ADD_OR_REMOVE_ONE -> orders_above_one orders ->
  rdp_randomized_response p k orders rel = Ok v -> vec_pos v.
Proof.
  intros Rl O H. unfold rdp_randomized_response in H. destruct p as [p| | |]; try discriminate.
  destruct (Rltb_spec p 0); [discriminate|]. destruct (Rltb_spec 1 p); [discriminate|]. cbn [orb] in H.
  destruct (Z.ltb_spec k 1); [discriminate|]. revert H. apply map_res_pos; [assumption|]. intros a r Ha H.
  destruct (Z.eqb_spec k 1) as [->|K].
  { assert (X : r = Fin 0).
    { destruct (relation_eqb rel REPLACE_ONE); cbn in H; unfold rr_rdp_one, rr_rdp_special in H; cbn [xleb] in H;
      rewrite Rleb_false in H by lra; cbn in H; congruence. }
    subst r. apply xpos_Fin. lra. }
  assert (RO : rdp_order (Fin a)) by (left; exists a; split; [reflexivity | assumption]).
  assert (X : rdp_randomized_response (Fin p) k [Fin a] rel = Ok [r]).
  { unfold rdp_randomized_response. rewrite !Rltb_false by lra. cbn [orb]. destruct (Z.ltb_spec k 1); [lia|].
    cbn [map_res]. rewrite H. reflexivity. }
  assert (Y : exists E, rr_pair rel p k E /\ valid E).
  { destruct rel; [congruence | |].
    - exists (rr_exper p k 0 1). split.
      + exists 0%Z, 1%Z. repeat split; try (apply buckets_In; lia). discriminate.
      + apply rr_exper_valid; [lra | apply buckets_In; lia ..].
    - exists (rr_special p k 0). split.
      + exists 0%Z. split; [apply buckets_In; lia | reflexivity].
      + apply rr_special_valid; [lra | apply buckets_In; lia]. }
  destruct Y as (E & Y & V). destruct (rr_rdp_exact _ _ _ _ _ _ RO X Y) as (r' & [= <-] & [[B _] _]).
  destruct r as [r| | |]; try contradiction; [|reflexivity]. apply xpos_Fin. eapply renyi_nonneg; [exact V | exact B].
Qed.

(** Sampling without replacement *)
Lemma wor_int_pos q h n : xpos (xr_of_logp (wor_int q h n)).
Proof.
  unfold wor_int. destruct (n =? 1)%nat; [apply xpos_Fin; lra|].
  match goal with |- xpos (xr_of_logp (fold_left (fun a i => log_add a (?f i)) ?l _)) =>
    pose proof (fold_log_add f l (Some 0)) as E end.
  match goal with |- xpos (xr_of_logp ?x) => set (r := x) in * end.
  change (lexp r = lexp (Some 0) + rsum (fun i => lexp ((if (n <=? 256)%nat
    then wor_exact_term q h n (get_forward_diffs (wor_cgf h) n) else wor_stirling_term q h n) i)) (seq 2 (n - 1))) in E.
  cbn [lexp] in E. rewrite exp_0 in E.
  assert (P : 1 <= lexp r).
  { rewrite E. match goal with |- 1 <= 1 + ?s => assert (0 <= s); [|lra] end. apply rsum_nonneg. intros i _.
    destruct ((if (n <=? 256)%nat then _ else _) i); cbn [lexp]; [left; apply exp_pos | lra]. }
  destruct r as [x|]; cbn [lexp] in P; [|lra]. cbn [xr_of_logp]. apply xpos_Fin.
  apply ln_le_mono in P; [|lra]. rewrite ln_1, ln_exp in P. exact P.
Qed.
Lemma two_var_cases n : two_var (nval n) = PInf \/ exists s, two_var (nval n) = Fin s /\ 0 <= s.
Proof.
  destruct n as [z|r|]; cbn; [right; eexists; split; [reflexivity|]; nra ..|].
  left. unfold inf_times. rewrite Rltb_true by lra. reflexivity.
Qed.
Lemma wor_pos q sg orders v : (sg = SComplex \/ exists n, sg = SNum (nval n)) -> orders_above_one orders ->
  rdp_wor_gaussian q sg orders = Ok v -> vec_pos v.
Proof.
  intros N O. apply map_res_pos; [assumption|]. intros a r Ha H. unfold wor_order in H.
  destruct (negb _); [discriminate|]. destruct (Reqb q 0); [injection H as <-; apply xpos_Fin; lra|].
  destruct (Reqb q 1).
  - destruct N as [->|(n & ->)]; [discriminate|]. injection H as <-. destruct (two_var_cases n) as [->|(s & -> & Hs)].
    + apply xpos_Fin. lra.
    + cbn [xdiv]. destruct (Reqb_spec s 0); [rewrite Rltb_true by lra; reflexivity|]. apply xpos_Fin.
      apply Rmult_le_pos; [lra | left; apply Rinv_0_lt_compat; lra].
  - rewrite Reqb_false in H by lra. destruct N as [->|(n & ->)]; [discriminate|]. destruct (nval n) as [s| | |]; try discriminate.
    destruct (Reqb s 0); [discriminate|]. destruct (is_integer a).
    + injection H as <-. apply xpos_div; [apply wor_int_pos | lra].
    + injection H as <-. apply xpos_div; [|lra]. pose proof (Rfloor_spec a) as F.
      pose proof (wor_int_pos q (/ (2 * (s * s))) (Z.to_nat (Rfloor a))) as P1.
      pose proof (wor_int_pos q (/ (2 * (s * s))) (Z.to_nat (Rceil a))) as P2.
      destruct (wor_int q _ (Z.to_nat (Rfloor a))) as [x|]; [|discriminate P1].
      destruct (wor_int q _ (Z.to_nat (Rceil a))) as [y|]; [|discriminate P2].
      cbn [xr_of_logp] in *. apply xpos_Fin in P1. apply xpos_Fin in P2. cbn [xmul xadd]. apply xpos_Fin.
      assert (0 <= (1 - (a - IZR (Rfloor a))) * x) by (apply Rmult_le_pos; lra).
      assert (0 <= (a - IZR (Rfloor a)) * y) by (apply Rmult_le_pos; lra). lra.
Qed.

(** Tree aggregation *)
Lemma fold_max_ge l : forall x, (x <= fold_left Z.max l x)%Z.
Proof. induction l as [|y l IH]; intros x; cbn [fold_left]; [lia|]. specialize (IH (Z.max x y)). lia. Qed.
Lemma tree_pos n st orders v : orders_above_one orders -> rdp_tree (nval n) st orders = Ok v -> vec_pos v.
Proof.
  intros O H. unfold rdp_tree in H. destruct (xltb (nval n) (Fin 0)) eqn:E1; [discriminate|].
  destruct (xeqb (nval n) (Fin 0)) eqn:E2.
  - injection H as <-. apply Forall_forall. intros x. rewrite in_map_iff. intros (a & <- & _). reflexivity.
  - destruct (no_steps st) eqn:NS; [discriminate|]. destruct (existsb _ _) eqn:EX; [discriminate|]. injection H as <-.
    assert (D : 0 <= IZR (tree_depth (step_list st))).
    { unfold tree_depth. set (m := fold_left Z.max (step_list st) (hd 0%Z (step_list st))).
      assert (M : (0 <= m)%Z).
      { pose proof (fold_max_ge (step_list st) (hd 0%Z (step_list st))) as F. fold m in F.
        assert (0 <= hd 0%Z (step_list st))%Z; [|lia]. destruct (step_list st) as [|z l]; cbn [hd]; [lia|].
        cbn [existsb] in EX. apply orb_false_elim in EX. destruct EX as [EX _]. apply Z.ltb_ge in EX. lia. }
      pose proof (Rceil_spec (ln (IZR (m + 1)) / ln 2)) as [_ C]. eapply Rle_trans; [|exact C].
      apply Rmult_le_pos.
      - rewrite <- ln_1. apply ln_le_mono; [lra|]. rewrite plus_IZR. apply IZR_le in M. lra.
      - left. apply Rinv_0_lt_compat. rewrite <- ln_1. apply ln_increasing; lra. }
    apply Forall_forall. intros x. rewrite in_map_iff. intros (a & <- & I). destruct (O a I) as (y & -> & Hy). cbn [xmul].
    destruct (two_var_cases n) as [->|(s & E & Hs)]; [apply xpos_Fin; lra|]. rewrite E.
    apply xpos_div; [apply xpos_Fin; apply Rmult_le_pos; lra|].
    destruct n as [z|r|]; cbn in E, E2; try (destruct (Reqb_spec (IZR z) 0); [discriminate|]; injection E as <-; nra).
    + destruct (Reqb_spec r 0); [discriminate|]. injection E as <-. nra.
    + unfold two_var, inf_times in E. rewrite Rltb_true in E by lra. discriminate.
Qed.

(** Repeat and select *)
Lemma delta_range orders rdp eps d o : good_orders orders -> (forall a r, In (a, r) (combine orders rdp) -> finpos r) ->
  compute_delta orders rdp (Fin eps) = Ok (d, o) -> exists x, d = Fin x /\ 0 <= x <= 1.
Proof.
  intros Go Fp H. pose proof (compute_delta_orders _ _ _ _ H) as O1.
  assert (N := delta_all_orders eps orders rdp Go Fp O1).
  apply delta_spec in H; [|exact N]. destruct H as (_ & _ & _ & r & I & -> & _). pose proof (N _ _ I) as Ng.
  unfold pymin. destruct (logdelta_of_order (Fin eps) o r) as [y| | |]; cbn.
  - pose proof (exp_pos y). destruct (Rltb_spec 1 (exp y)); [exists 1 | exists (exp y)]; (split; [reflexivity|lra]).
  - exists 1. split; [reflexivity|lra].
  - rewrite Rltb_false by lra. exists 0. split; [reflexivity|lra].
  - elim Ng; reflexivity.
Qed.
Lemma above_good orders : orders_above_one orders -> good_orders orders.
Proof. intros O a I. destruct (O a I) as (x & -> & _). exists x. left; reflexivity. Qed.

Lemma monotone_pos orders : forall todo done v, Forall (fun ax => xpos (snd ax)) done ->
  Forall (fun ax => xpos (snd ax)) todo -> rs_monotone orders done todo = Ok v -> vec_pos v.
Proof.
  induction todo as [|[a x] todo IH]; intros done v D T; cbn [rs_monotone].
  - intros [= <-]. unfold vec_pos. apply Forall_map. exact D.
  - destruct (pymin_list _) as [m|] eqn:P; [|discriminate]. cbn [bind]. apply IH; [|inversion T; assumption].
    apply Forall_app. split; [assumption|]. constructor; [|constructor]. cbn [snd].
    unfold pymin_list in P.
    set (l := map snd (filter (fun bx => xleb a (fst bx)) (done ++ (a, x) :: todo))) in P.
    assert (PL : Forall xpos l).
    { apply Forall_map. apply Forall_forall. intros y I. apply filter_In in I. destruct I as [I _].
      assert (A : Forall (fun ax => xpos (snd ax)) (done ++ (a, x) :: todo)) by (apply Forall_app; split; assumption).
      rewrite Forall_forall in A. exact (A y I). }
    destruct l as [|z l]; [discriminate|]. injection P as <-. inversion_clear PL as [|? ? Z L]. clear - Z L. revert z Z.
    induction L as [|y l Y _ IH]; intros z Z; cbn [fold_left]; [assumption|]. apply IH.
    destruct (pymin_or z y) as [-> | ->]; assumption.
Qed.
Lemma rs_pos fuel orders rdp n shape v : orders_above_one orders -> n <> PyInf -> vec_pos rdp ->
  rdp_repeat_and_select fuel orders rdp (nval n) shape = Ok v -> vec_pos v.
Proof.
  intros O Nn Pr H. unfold rdp_repeat_and_select in H. destruct (xltb shape (Fin 0)); [discriminate|].
  destruct (xltb (nval n) (Fin 1)) eqn:M; [discriminate|].
  destruct (Nat.eqb_spec (length orders) (length rdp)) as [L|]; [|discriminate]. cbn [negb] in H.
  assert (Mn : exists m, nval n = Fin m /\ 1 <= m).
  { destruct n as [z|m|]; [| |congruence]; cbn in M; eexists; (split; [reflexivity|]);
      (match type of M with Rltb ?x 1 = _ => destruct (Rltb_spec x 1); [discriminate | lra] end). }
  destruct Mn as (m & Em & Hm). rewrite Em in *. clear Em.
  assert (CO : forall ar, In ar (combine orders rdp) -> exists a, fst ar = Fin a /\ 1 < a /\ xpos (snd ar)).
  { intros [a r] I. destruct (O a (in_combine_l _ _ _ _ I)) as (x & -> & Hx). exists x. repeat split; [assumption|].
    eapply vec_pos_in; eassumption. }
  assert (LN : 0 <= ln m) by (rewrite <- ln_1; apply ln_le_mono; lra).
  assert (LM : forall a, 1 < a -> xpos (xdiv (xlog (Fin m)) (xsub (Fin a) (Fin 1)))).
  { intros a Ha. unfold xsub. cbn [xlog xneg xadd]. apply xpos_div; [apply xpos_Fin; exact LN | lra]. }
  assert (PO : forall v, map_res (rs_poisson_order orders rdp (Fin m)) (combine orders rdp) = Ok v -> vec_pos v).
  { clear H v. intros v H. apply map_res_ok in H. induction H as [|ar r l v Ha _ IH]; [constructor|]. constructor.
    - destruct (CO ar (or_introl eq_refl)) as (a & Ea & A1 & Px). destruct ar as [a0 r0]. cbn [fst snd] in *. subst a0.
      unfold rs_poisson_order in Ha. cbn [xleb] in Ha. rewrite Rleb_false in Ha by lra.
      assert (EH : exists e, xlog1p (xdiv (Fin 1) (xsub (Fin a) (Fin 1))) = Fin e).
      { unfold xlog1p, xsub. cbn [xneg xadd xdiv]. rewrite Reqb_false by lra. eexists. reflexivity. }
      destruct EH as (e & EH). rewrite EH in Ha. destruct (compute_delta orders rdp (Fin e)) as [[d o]|] eqn:D; [|discriminate].
      cbn [bind fst] in Ha. injection Ha as <-.
      destruct (delta_range _ _ _ _ _ (above_good _ O) (fun a r I => xpos_finpos _ (vec_pos_in _ _ _ _ Pr I)) D) as (x & -> & Hx).
      apply xpos_add; [apply xpos_add; [assumption|] | apply LM; assumption].
      cbn [xmul]. apply xpos_Fin. apply Rmult_le_pos; lra.
    - apply IH. intros y I. apply CO. right. exact I. }
  destruct shape as [s| | |]; try (apply PO; exact H).
  destruct (gamma_tnb fuel s (Fin m) (1 / 10 ^ 9)) as [g|] eqn:G; [|discriminate]. cbn [bind] in H.
  assert (S0 : 0 <= s).
  { unfold gamma_tnb in G. destruct (Rltb_spec s 0); [discriminate | lra]. }
  assert (T0 : 0 <= 1 / 10 ^ 9) by (apply Rmult_le_pos; [lra | left; apply Rinv_0_lt_compat, pow_lt; lra]).
  destruct (gamma_sound _ _ _ _ _ T0 G) as (Hg & _). destruct (Rleb g 0); [discriminate|].
  destruct (npmin _) as [mn|] eqn:NM; [|discriminate]. cbn [bind] in H.
  assert (LG : ln g <= 0) by (rewrite <- ln_1; apply ln_le_mono; lra).
  assert (PM : xpos mn).
  { unfold npmin in NM. destruct (argmin _) as [b|] eqn:AM; [|discriminate]. injection NM as <-.
    assert (ALL : forall x, In x (map (fun x => (x, x)) (map (fun ar : xr * xr => xsub (xmul (xsub (Fin 1) (xdiv (Fin 1) (fst ar))) (snd ar))
                                           (xdiv (Fin (ln g)) (fst ar))) (combine orders rdp))) -> xpos (fst x)).
    { intros x I. rewrite map_map in I. apply in_map_iff in I. destruct I as (ar & <- & I). cbn [fst].
      destruct (CO ar I) as (a & -> & A1 & Px). unfold xsub at 2. cbn [xdiv xneg]. rewrite !Reqb_false by lra. cbn [xneg xadd].
      assert (IA : / a < 1) by (rewrite <- Rinv_1; apply Rinv_lt_contravar; lra).
      unfold xsub. cbn [xneg]. apply xpos_add; [apply xpos_mul; [unfold Rdiv; lra | assumption]|]. apply xpos_Fin.
      assert (0 < / a) by (apply Rinv_0_lt_compat; lra). unfold Rdiv. nra. }
    apply argmin_spec in AM; [|intros x I; specialize (ALL x I); destruct (fst x); discriminate].
    destruct AM as [I _]. exact (ALL b I). }
  revert H. apply monotone_pos; [constructor|]. apply Forall_forall. intros [a x] I. cbn [snd].
  apply in_combine_r in I. apply in_map_iff in I. destruct I as (ar & <- & I). destruct (CO ar I) as (y & Ey & Y1 & Px).
  destruct ar as [a0 r0]. cbn [fst snd] in *. subst a0. unfold rs_tnb_order. cbn [xltb]. rewrite Rltb_true by assumption.
  apply xpos_add; [apply xpos_add; [assumption | apply LM; assumption]|]. apply xpos_mul; [lra | assumption].
Qed.
