(** Concrete instances and counterexamples for the accountants. *)
From Verif Require Import Base XReal Exn PyDict TypesEvent TypesRelation SpecEvent ModelBuilder ProofBuilder ModelCommon ModelPmf ModelPld
  SpecDP SpecPmf SpecPld ProofDP ProofDict ProofPmf ProofCompose ProofCompose2 ProofQuery ProofPld ProofSelf ProofSelfDP ProofPldApi
  ModelMake SpecMake ProofTwo ProofRR ProofRdpMath ModelRdp SpecRenyi SpecRdp ProofConv ProofMono ProofRdpEx
  ModelAccountant SpecAccountant SpecAccPld ProofAccGen ProofAccRdp ProofAccAdd ProofCharge ProofAccMono ProofAccPld ProofLedger ProofAccSound.
Local Arguments Rltb : simpl never.
Local Arguments Rleb : simpl never.
Local Arguments Reqb : simpl never.

Section Rdp.
  Context (frac : R -> xr -> xr -> xr) (fuel : nat).
  Notation mc rel orders := (rdp_mc frac fuel rel orders).

  Lemma g1 rel s n : mc rel [Fin 2] true s (Gaussian (PyFloat 1)) n = (vec_add s [Fin (IZR n)], Fine).
  Proof.
    cbn [rdp_mc nval]. unfold rdp_poisson_gaussian. rewrite Rleb_true, Rleb_true by lra. cbn [andb negb xltb]. rewrite Rltb_false by lra.
    unfold charge. do 2 f_equal. cbn [map]. unfold poisson_order. cbn [isinf xeqb orb]. rewrite (Reqb_false 1 0), (Reqb_true 1 1) by lra.
    unfold two_var. cbn [xmul xdiv vec_scale map]. rewrite Reqb_false by lra. cbn [xmul]. do 2 f_equal. field.
  Qed.

  (** One Gaussian then a RepeatAndSelect with an invalid mean. *)
  Definition bad_repeat : event num := RepeatAndSelect (Gaussian (PyFloat 1)) (PyFloat (1/2)) (PyFloat 1).
  Definition after_nonprivate : accountant (list xr) := fst (acc_compose (mc ADD_OR_REMOVE_ONE [Fin 2]) (rdp_new [Fin 2]) (EventObj NonPrivate) 1).
  Definition after_bad : accountant (list xr) := fst (acc_compose (mc ADD_OR_REMOVE_ONE [Fin 2]) after_nonprivate (EventObj bad_repeat) 1).
  Lemma bad_state : acc_state after_bad = [Fin 1] /\
    snd (acc_compose (mc ADD_OR_REMOVE_ONE [Fin 2]) after_nonprivate (EventObj bad_repeat) 1) = Err ValueError.
  Proof.
    assert (M : mc ADD_OR_REMOVE_ONE [Fin 2] true (acc_state after_nonprivate) bad_repeat 1 = ([Fin 1], Raise ValueError)).
    { unfold bad_repeat. change (mc ADD_OR_REMOVE_ONE [Fin 2] true (acc_state after_nonprivate) (RepeatAndSelect (Gaussian (PyFloat 1)) (PyFloat (1/2)) (PyFloat 1)) 1)
        with (let (s1, r) := mc ADD_OR_REMOVE_ONE [Fin 2] true [Fin 0] (Gaussian (PyFloat 1)) 1 in
          match r with
          | Fine => match rdp_repeat_and_select fuel [Fin 2] s1 (Fin (1/2)) (Fin 1) with
                    | Ok v => (vec_add (vec_scale 1 v) (acc_state after_nonprivate), Fine)
                    | Err x => (s1, Raise x)
                    end
          | _ => (s1, r)
          end).
      rewrite g1. unfold rdp_repeat_and_select. cbn [xltb]. rewrite (Rltb_false 1 0), (Rltb_true (1/2) 1) by lra.
      unfold vec_add. cbn. rewrite Rplus_0_l. reflexivity. }
    unfold after_bad. cbn [acc_compose]. rewrite (rdp_dry_pure frac fuel).
    replace (rdp_dry frac fuel ADD_OR_REMOVE_ONE [Fin 2] bad_repeat) with Fine by reflexivity.
    cbn [builder_compose bad_repeat]. change (1 <? 1)%Z with false. cbn iota. fold bad_repeat. rewrite M. split; reflexivity.
  Qed.
  Lemma eps_inf : rdp_epsilon [Fin 2] after_nonprivate (1/10) = Ok PInf.
  Proof.
    assert (St : acc_state after_nonprivate = [PInf]) by reflexivity.
    unfold rdp_epsilon, compute_epsilon. rewrite St, Rltb_false, Reqb_false by lra.
    cbn [length Nat.eqb negb combine map_res fst snd bind xltb]. rewrite Rltb_false by lra. cbn [bind argmin argmin_from fst snd].
    unfold eps_of_order. cbn. rewrite (Rltb_false 0), (Rltb_true (101/100) 2), Reqb_false by lra. cbn. rewrite (Reqb_false (2 + - (1))) by lra. reflexivity.
  Qed.
  Lemma forgets : exists e, rdp_epsilon [Fin 2] after_bad (1/10) = Ok (Fin e).
  Proof.
    destruct coin_eps as [_ (e & E & _)]. exists e. unfold rdp_epsilon. rewrite (proj1 bad_state), E. reflexivity.
  Qed.

  (** An exception after the ledger was updated. *)
  Lemma ledger_zero_div : exists A', acc_compose (mc ADD_OR_REMOVE_ONE [Fin 2]) (rdp_new [Fin 2]) (EventObj (Laplace (PyFloat 0))) 1 = (A', Err ZeroDivisionError) /\
    snd (acc_get_ledger A') = Laplace (PyFloat 0) /\ acc_state A' = [Fin 0].
  Proof.
    eexists. split; [|split].
    - cbn. rewrite Reqb_true by lra. reflexivity.
    - reflexivity.
    - reflexivity.
  Qed.

  (** Ints and floats are merged in the ledger but accounted differently. *)
  Definition pair_of (n : num) : event num := PoissonSampled (PyFloat 1) (Composed [Gaussian n; Gaussian n]).
  Lemma sqrt_half_sq : 2 * (/ sqrt 2 * / sqrt 2) = 1.
  Proof. rewrite <- Rinv_mult, sqrt_sqrt by lra. lra. Qed.
  Lemma pair_float s n : mc ADD_OR_REMOVE_ONE [Fin 2] true s (pair_of (PyFloat 1)) n = (vec_add s [Fin (IZR n * 2)], Fine).
  Proof.
    unfold pair_of. destruct (gaussian_eff (Composed [Gaussian (PyFloat 1); Gaussian (PyFloat 1)])) as (x & E & Hx & Sx).
    { cbn. repeat split; try lra; discriminate. }
    cbn [rdp_mc relation_eqb]. rewrite E. unfold rdp_poisson_gaussian. cbn [nval xltb]. rewrite Rleb_true, Rleb_true, Rltb_false by lra. cbn [andb negb].
    unfold charge. do 2 f_equal. cbn [map]. unfold poisson_order. cbn [isinf xeqb orb]. rewrite (Reqb_false 1 0), (Reqb_true 1 1), (Reqb_false x 0) by lra.
    unfold two_var. cbn [xmul xdiv vec_scale map]. rewrite Reqb_false by nra. cbn [xmul]. do 2 f_equal. cbn in Sx.
    replace (2 / (2 * (x * x))) with (/ (x * x)) by (field; lra). rewrite Sx. lra.
  Qed.
  Lemma pair_int s n : mc ADD_OR_REMOVE_ONE [Fin 2] true s (pair_of (PyInt 1)) n = (vec_add s [Fin (IZR n)], Fine).
  Proof.
    cbn [pair_of rdp_mc relation_eqb effective_noise bind]. unfold rdp_poisson_gaussian. cbn [nval xltb].
    rewrite Rleb_true, Rleb_true, Rltb_false by lra. cbn [andb negb].
    unfold charge. do 2 f_equal. cbn [map]. unfold poisson_order. cbn [isinf xeqb orb]. rewrite (Reqb_false 1 0), (Reqb_true 1 1) by lra.
    unfold two_var. cbn [xmul xdiv vec_scale map]. rewrite Reqb_false by lra. cbn [xmul]. do 2 f_equal. field.
  Qed.

  Lemma int_merge : exists A A' L, runs (mc ADD_OR_REMOVE_ONE [Fin 2]) (rdp_new [Fin 2]) [(pair_of (PyFloat 1), 1%Z); (pair_of (PyInt 1), 1%Z)] A /\
    snd (acc_get_ledger A) = L /\ acc_compose (mc ADD_OR_REMOVE_ONE [Fin 2]) (rdp_new [Fin 2]) (EventObj L) 1 = (A', Ok tt) /\
    acc_state A = [Fin 3] /\ acc_state A' = [Fin 2].
  Proof.
    assert (Eq : event_eqb (pair_of (PyFloat 1)) (pair_of (PyInt 1)) = true) by (apply event_eqb_iff; reflexivity).
    set (M := mc ADD_OR_REMOVE_ONE [Fin 2]).
    assert (C1 : acc_compose M (rdp_new [Fin 2]) (EventObj (pair_of (PyFloat 1))) 1 =
                 (mkAcc [Fin 2] (mkBuilder [(pair_of (PyFloat 1), 1%Z)] None), Ok tt)).
    { cbn [acc_compose]. unfold M. rewrite (rdp_dry_pure frac fuel).
      replace (rdp_dry frac fuel ADD_OR_REMOVE_ONE [Fin 2] (pair_of (PyFloat 1))) with Fine.
      2:{ unfold rdp_dry, pair_of. cbn [rdp_mc relation_eqb]. destruct (gaussian_eff (Composed [Gaussian (PyFloat 1); Gaussian (PyFloat 1)])) as (x & E & _).
          { cbn. repeat split; try lra; discriminate. } rewrite E. reflexivity. }
      change (builder_compose (acc_ledger (rdp_new [Fin 2])) (pair_of (PyFloat 1)) 1) with (mkBuilder [(pair_of (PyFloat 1), 1%Z)] None, @Ok unit tt).
      cbn iota. rewrite pair_float. cbn. do 5 f_equal. lra. }
    set (A1 := mkAcc [Fin 2] (mkBuilder [(pair_of (PyFloat 1), 1%Z)] None)) in *.
    assert (C2 : acc_compose M A1 (EventObj (pair_of (PyInt 1))) 1 =
                 (mkAcc [Fin 3] (mkBuilder [(pair_of (PyInt 1), 2%Z)] None), Ok tt)).
    { cbn [acc_compose]. unfold M. rewrite (rdp_dry_pure frac fuel).
      replace (rdp_dry frac fuel ADD_OR_REMOVE_ONE [Fin 2] (pair_of (PyInt 1))) with Fine by reflexivity.
      replace (builder_compose (acc_ledger A1) (pair_of (PyInt 1)) 1) with (mkBuilder [(pair_of (PyInt 1), 2%Z)] None, @Ok unit tt).
      2:{ unfold A1. change (builder_compose (acc_ledger (mkAcc [Fin 2] (mkBuilder [(pair_of (PyFloat 1), 1%Z)] None))) (pair_of (PyInt 1)) 1)
            with (mkBuilder (push_count [(pair_of (PyFloat 1), 1%Z)] (pair_of (PyInt 1)) 1) None, @Ok unit tt).
          unfold push_count. cbn [rev app]. rewrite Eq. reflexivity. }
      cbn iota. rewrite pair_int. cbn. do 5 f_equal. lra. }
    exists (mkAcc [Fin 3] (mkBuilder [(pair_of (PyInt 1), 2%Z)] None)), (mkAcc [Fin 2] (mkBuilder [(pair_of (PyInt 1), 2%Z)] None)), (SelfComposed (pair_of (PyInt 1)) 2).
    split; [|split; [reflexivity|split; [|split; reflexivity]]].
    - eapply runs_cons; [exact C1|]. eapply runs_cons; [exact C2|]. apply runs_nil.
    - cbn [acc_compose]. unfold M. rewrite (rdp_dry_pure frac fuel).
      replace (rdp_dry frac fuel ADD_OR_REMOVE_ONE [Fin 2] (SelfComposed (pair_of (PyInt 1)) 2)) with Fine by reflexivity.
      replace (builder_compose (acc_ledger (rdp_new [Fin 2])) (SelfComposed (pair_of (PyInt 1)) 2) 1) with (mkBuilder [(pair_of (PyInt 1), 2%Z)] None, @Ok unit tt) by reflexivity.
      change (mc ADD_OR_REMOVE_ONE [Fin 2] true (acc_state (rdp_new [Fin 2])) (SelfComposed (pair_of (PyInt 1)) 2) 1)
        with (mc ADD_OR_REMOVE_ONE [Fin 2] true [Fin 0] (pair_of (PyInt 1)) (2 * 1)).
      rewrite pair_int. cbn. rewrite Rplus_0_l. reflexivity.
  Qed.

  (** A history in which the hypotheses of the theorems hold. *)
  Definition two_gaussians : list (event num * Z) :=
    [(SelfComposed (Composed [Gaussian (PyFloat 1); NoOp]) 3, 2%Z); (Composed [Gaussian (PyFloat 1)], 1%Z)].
  Lemma vec1 a b : vec_add [Fin a] [Fin b] = [Fin (a + b)].
  Proof. reflexivity. Qed.
  Lemma gaussians_run rel : exists A, runs (mc rel [Fin 2]) (rdp_new [Fin 2]) two_gaussians A /\ acc_state A = [Fin 7].
  Proof.
    eexists. split.
    - eapply runs_cons.
      + apply (compose_fine _ (rdp_dry frac fuel rel [Fin 2]) (rdp_dry_pure frac fuel rel [Fin 2])); [reflexivity | reflexivity | apply new_inv|].
        change (mc rel [Fin 2] true (acc_state (rdp_new [Fin 2])) (SelfComposed (Composed [Gaussian (PyFloat 1); NoOp]) 3) 2)
          with (mc rel [Fin 2] true [Fin 0] (Composed [Gaussian (PyFloat 1); NoOp]) (3 * 2)).
        rewrite (rdp_composed frac fuel). cbn [seq_mc]. rewrite g1. cbn [rdp_mc]. reflexivity.
      + eapply runs_cons; [|apply runs_nil].
        apply (compose_fine _ (rdp_dry frac fuel rel [Fin 2]) (rdp_dry_pure frac fuel rel [Fin 2])); [reflexivity | reflexivity | apply builder_compose_inv, new_inv|].
        rewrite (rdp_composed frac fuel). cbn [seq_mc acc_state]. rewrite g1. rewrite !vec1. reflexivity.
    - cbn. do 2 f_equal. lra.
  Qed.
  Lemma gaussians_ok : pos_history two_gaussians /\ Forall (fun en => floats (fst en)) two_gaussians /\
    Forall (fun en => finite_means (fst en)) two_gaussians /\ Forall (fun en => no_repeat (fst en)) two_gaussians.
  Proof. unfold two_gaussians, pos_history. repeat split; repeat constructor; cbn; lia. Qed.
End Rdp.

Definition frac0 : R -> xr -> xr -> xr := fun _ _ _ => Fin 0.
Lemma frac0_ok : moments_at_least_one frac0.
Proof. intros q sigma a _ _ _. unfold frac0. cbn. apply Rleb_true. lra. Qed.
Lemma two_ok : orders_above_one [Fin 2].
Proof. intros a [<-|[]]. exists 2. split; [reflexivity | lra]. Qed.

(** ** Randomised response *)
Lemma size0 p : psum p (fun _ => 1) <> 0 -> pmf_size p <> 0%nat.
Proof.
  intros H E. apply H. unfold psum, pmf_size in *. destruct (pmf_body p) as [d|lo l]; [destruct d | destruct l]; try discriminate; reflexivity.
Qed.
Definition good_pmf (disc : R) (p : pmf) : Prop :=
  wf p /\ pessimistic_estimate p = true /\ discretization p = disc /\ infinity_mass p = 0 /\ psum p (fun _ => 1) = 1.
Lemma good_compose disc p q : good_pmf disc p -> good_pmf disc q -> exists r, compose_pmfs p q 0 = Ok r /\ good_pmf disc r.
Proof.
  intros (Wp & Pp & Dp & Ip & Mp) (Wq & Pq & Dq & Iq & Mq).
  destruct (compose_total p q 0) as [r E]; auto; try lra; try congruence; try (apply size0; lra).
  exists r. split; [exact E|]. apply compose_pmfs_ok in E; [|assumption..].
  destruct (co_exact _ _ _ _ E eq_refl) as [X Y]. split; [|split; [|split; [|split]]].
  - apply (compose_wf p q 0 r Wp Wq); [left; lra | exact E].
  - rewrite (co_rpess _ _ _ _ E). exact Pp.
  - rewrite (co_rdisc _ _ _ _ E). exact Dp.
  - rewrite Y, Ip, Iq. unfold combine_inf. lra.
  - rewrite X. unfold conv2. rewrite (psum_ext p _ (fun _ => 1)); [exact Mp|]. intros; exact Mq.
Qed.
Definition good_pld disc D := good_pmf disc (pmf_remove D) /\ good_pmf disc (pmf_add D) /\ (symmetric D = true -> pmf_add D = pmf_remove D).
Lemma good_pld_compose disc D D' : good_pld disc D -> good_pld disc D' -> exists r, pld_compose D D' 0 = Ok r /\ good_pld disc r.
Proof.
  intros (G1 & G2 & S) (G1' & G2' & S'). destruct (good_compose _ _ _ G1 G1') as (r1 & E1 & R1). destruct (good_compose _ _ _ G2 G2') as (r2 & E2 & R2).
  unfold pld_compose. rewrite E1. cbn [bind]. destruct (symmetric D && symmetric D')%bool.
  - eexists. split; [reflexivity|]. split; [exact R1 | split; [exact R1 | reflexivity]].
  - rewrite E2. cbn [bind]. eexists. split; [reflexivity|]. split; [exact R1 | split; [exact R2 | discriminate]].
Qed.
Lemma identity_good disc : 0 < disc -> good_pld disc (new_pld (mkPmf disc 0 true (Sparse [(0%Z, 1)])) None).
Proof.
  intros Hd. assert (G : good_pmf disc (mkPmf disc 0 true (Sparse [(0%Z, 1)]))).
  { split; [apply identity_wf; assumption|]. repeat split. unfold psum, dsum. cbn. lra. }
  split; [exact G | split; [exact G | reflexivity]].
Qed.
Lemma identity_left disc D r eps : good_pld disc D -> pld_compose (new_pld (mkPmf disc 0 true (Sparse [(0%Z, 1)])) None) D 0 = Ok r ->
  0 < disc -> pmf_delta (pmf_remove r) (Fin eps) = pmf_delta (pmf_remove D) (Fin eps) /\ pmf_delta (pmf_add r) (Fin eps) = pmf_delta (pmf_add D) (Fin eps).
Proof.
  intros (G1 & G2 & S) H Hd. destruct (identity_good disc Hd) as (J1 & J2 & S0).
  destruct (pld_compose_inv _ _ _ _ H S0 S) as (C1 & C2 & _).
  assert (K : forall p q r, p = mkPmf disc 0 true (Sparse [(0%Z, 1)]) -> good_pmf disc p -> good_pmf disc q -> compose_pmfs p q 0 = Ok r -> pmf_delta r (Fin eps) = pmf_delta q (Fin eps)).
  { clear. intros p q r Hp Gp Gq E. destruct Gp as (Wp & _ & _ & Ip & _). destruct Gq as (Wq & Pq & Dq & Iq & Mq).
    apply compose_pmfs_ok in E; [|assumption..]. destruct (co_exact _ _ _ _ E eq_refl) as [X Y].
    assert (Wr : wf r) by (apply (compose_wf p q 0 r Wp Wq); [left; lra | exact E]).
    rewrite !pmf_delta_psum by assumption. unfold ptest. rewrite X, Y, (co_rdisc _ _ _ _ E), Ip, Iq. subst p. cbn [discretization]. rewrite Dq.
    unfold combine_inf. rewrite Rmult_0_l. f_equal; [|lra]. unfold conv2. unfold psum at 1. cbn [pmf_body]. unfold dsum. cbn [rsum fst snd].
    rewrite Rmult_1_l, Rplus_0_r. apply psum_ext. intros; reflexivity. }
  split; [eapply (K _ _ _ eq_refl J1 G1 C1) | eapply (K _ _ _ eq_refl J2 G2 C2)].
Qed.

Definition rr_event : event num := RandResp (PyFloat (1/2)) 2.
Lemma rr_prob_val x o : rr_prob (1/2) 2 x o = if (o =? x)%Z then 3/4 else 1/4.
Proof. unfold rr_prob. destruct (o =? x)%Z; lra. Qed.
Lemma rr_hs_0 eps : ln 3 <= eps -> hockey_stick (rr_exper (1/2) 2 0 1) eps = 0 /\ hockey_stick (swap (rr_exper (1/2) 2 0 1)) eps = 0.
Proof.
  intros H. assert (3 <= exp eps) by (rewrite <- (exp_ln 3) at 1 by lra; apply exp_le; exact H).
  unfold hockey_stick. cbn [swap rr_exper outs prP prQ]. change (buckets 2) with [0%Z; 1%Z]. cbn [rsum]. rewrite !rr_prob_val. cbn [Z.eqb Pos.eqb].
  rewrite !pos_0 by lra. split; lra.
Qed.

Section RR.
  Context (gaussian_pld laplace_pld : xr -> xr -> res pld)
          (mixture_pld : xr -> list xr -> list xr -> res pld) (fast_len : nat -> nat).
  Notation mc := (pld_mc gaussian_pld laplace_pld mixture_pld fast_len REPLACE_ONE (1/2) 0).

  Lemma rr_compose D s b n r : from_randomized_response (1/2) 2 true (1/2) REPLACE_ONE = Ok D -> (1 <= n)%Z ->
    pld_compose (cur_pld s) D 0 = Ok r -> snd (builder_compose b rr_event n) = Ok tt ->
    acc_compose mc (mkAcc s b) (EventObj rr_event) n = (mkAcc (mkPldState (non_dp s) r) (fst (builder_compose b rr_event n)), Ok tt).
  Proof.
    intros HD Hn C B. cbn [acc_compose acc_state acc_ledger]. cbn [pld_mc rr_event relation_eqb]. fold rr_event.
    destruct (builder_compose b rr_event n) as [b' u]. cbn [snd fst] in *. subst u. change (2 =? 1)%Z with false. cbn [nval xeqb].
    rewrite Reqb_false by lra. rewrite HD. unfold pld_charge. cbn [bind]. rewrite C. reflexivity.
  Qed.

  Lemma rr_count : exists A0 A1 A2 E, let eps := Fin (ln 3 + 1/2) in
    pld_new (1/2) = Ok A0 /\
    acc_compose mc A0 (EventObj rr_event) 2 = (A1, Ok tt) /\
    runs mc A0 [(rr_event, 1%Z); (rr_event, 1%Z)] A2 /\
    pldacc_delta (acc_state A1) eps < pldacc_delta (acc_state A2) eps /\
    interaction (repeat (rr_pair REPLACE_ONE (1/2) 2) 2) E /\
    ~ dp_both E (ln 3 + 1/2) (pldacc_delta (acc_state A1) eps).
  Proof.
    pose proof (rr_total (1/2) 2 true (1/2) REPLACE_ONE ltac:(lra)) as T. rewrite !Rltb_true in T by lra. cbn in T. destruct T as [D HD].
    set (E0 := rr_exper (1/2) 2 0 1).
    assert (PE : rr_pair REPLACE_ONE (1/2) 2 E0).
    { exists 0%Z, 1%Z. repeat split; try (apply buckets_In; lia). discriminate. }
    destruct (rr_pessimistic (1/2) 2 (1/2) REPLACE_ONE D E0 ltac:(lra) HD PE) as (((W1 & _ & P1) & (W2 & _ & P2) & SY) & Pr1 & Pr2 & B & Up).
    destruct (Up (ln 3 + 1/2)) as [U1 U2]. destruct (rr_hs_0 (ln 3 + 1/2 - 1/2) ltac:(lra)) as [Z1 Z2]. fold E0 in Z1, Z2. rewrite Z1 in U1. rewrite Z2 in U2.
    assert (G : good_pld (1/2) D).
    { destruct (rr_inv _ _ _ _ _ _ HD) as (_ & _ & _ & HT).
      destruct (two_inv _ _ _ _ _ _ _ _ HT) as (Sym & (i & d & ER & EC) & EA).
      assert (H12 : 0 < 1/2) by lra. assert (H01 : 0 < 1/2 < 1) by lra.
      destruct (rr_dist (1/2) 2 H01 ltac:(lia)) as [D1 D2].
      destruct (dir_total Z.eqb Z.eqb_eq _ _ _ _ _ _ _ _ H12 (proj1 D1) (proj1 D2) (proj2 D1) ER EC) as (_ & _ & DI & _).
      assert (Ip : infinity_mass (pmf_remove D) = 0).
      { pose proof (delta_bounds _ _ (ln 3 + 1/2) W1 (support_covers _ W1)). destruct W1 as (_ & I0 & _). lra. }
      apply proper_total in Pr1. destruct Pr1 as [_ T1]. unfold ProofPmf.total in T1.
      assert (Gp : good_pmf (1/2) (pmf_remove D)) by (split; [assumption|]; repeat split; try assumption; lra).
      split; [exact Gp | split; [rewrite EA; exact Gp | exact SY]]. }
    destruct (good_pld_compose _ _ _ (identity_good (1/2) ltac:(lra)) G) as (r1 & C1 & G1).
    destruct (good_pld_compose _ _ _ G1 G) as (r2 & C2 & G2).
    set (I0 := new_pld (mkPmf (1/2) 0 true (Sparse [(0%Z, 1)])) None) in *.
    set (A0 := mkAcc (mkPldState false I0) new_builder).
    pose proof (rr_compose D (mkPldState false I0) new_builder 2 r1 HD ltac:(lia) C1 eq_refl) as K2.
    pose proof (rr_compose D (mkPldState false I0) new_builder 1 r1 HD ltac:(lia) C1 eq_refl) as K1.
    set (b1 := fst (builder_compose new_builder rr_event 1)) in *.
    assert (B1 : snd (builder_compose b1 rr_event 1) = Ok tt) by reflexivity.
    pose proof (rr_compose D (mkPldState false r1) b1 1 r2 HD ltac:(lia) C2 B1) as K3. cbn [non_dp] in *.
    exists A0, (mkAcc (mkPldState false r1) (fst (builder_compose new_builder rr_event 2))),
      (mkAcc (mkPldState false r2) (fst (builder_compose b1 rr_event 1))),
      (seq_exper (seq_exper silent (fun _ => E0)) (fun _ => E0)). cbv zeta.
    assert (HI : interaction (repeat (rr_pair REPLACE_ONE (1/2) 2) 2) (seq_exper (seq_exper silent (fun _ => E0)) (fun _ => E0))).
    { change (repeat (rr_pair REPLACE_ONE (1/2) 2) 2) with (([] ++ [rr_pair REPLACE_ONE (1/2) 2]) ++ [rr_pair REPLACE_ONE (1/2) 2]).
      constructor; [constructor; [constructor|]|]; intros; exact PE. }
    assert (R2 : runs mc A0 [(rr_event, 1%Z); (rr_event, 1%Z)] (mkAcc (mkPldState false r2) (fst (builder_compose b1 rr_event 1)))).
    { eapply runs_cons; [exact K1|]. eapply runs_cons; [exact K3|]. apply runs_nil. }
    assert (Dl : pldacc_delta (mkPldState false r1) (Fin (ln 3 + 1/2)) <= 0).
    { unfold pldacc_delta. cbn [non_dp cur_pld]. destruct (identity_left (1/2) D r1 (ln 3 + 1/2) G C1 ltac:(lra)) as [L1 L2].
      unfold pld_delta. destruct (symmetric r1); rewrite ?L1, ?L2; [exact U1 | apply Rmax_lub; assumption]. }
    assert (Lo : forall x, dp_both (seq_exper (seq_exper silent (fun _ => E0)) (fun _ => E0)) (ln 3 + 1/2) x -> 0 < x).
    { intros x [HP _]. specialize (HP (fun t => (projT2 (projT1 t) =? 0)%Z && (projT2 t =? 0)%Z)%bool).
      unfold ProbP, ProbQ, E0, seq_exper, rr_exper, silent in HP. cbn [outs prP prQ outcome] in HP. change (buckets 2) with [0%Z; 1%Z] in HP.
      cbn [flat_map map app filter projT1 projT2 andb Z.eqb rsum] in HP. rewrite !rr_prob_val in HP. cbn [Z.eqb Pos.eqb] in HP.
      rewrite exp_plus, exp_ln in HP by lra.
      assert (X : exp (1/2) < 3).
      { pose proof exp_le_3. assert (exp (1/2) * exp (1/2) = exp 1) by (rewrite <- exp_plus; f_equal; lra). pose proof (exp_pos (1/2)). nra. }
      lra. }
    split; [reflexivity|]. split; [exact K2|]. split; [exact R2|]. cbn [acc_state].
    assert (Sd : dp_both (seq_exper (seq_exper silent (fun _ => E0)) (fun _ => E0)) (ln 3 + 1/2) (pldacc_delta (mkPldState false r2) (Fin (ln 3 + 1/2)))).
    { destruct G1 as (X1 & X2 & X3), G as (Y1 & Y2 & Y3). unfold pldacc_delta. cbn [non_dp cur_pld].
      assert (SD : forall D, good_pld (1/2) D -> sound_pld D).
      { clear. intros D ((a1 & a2 & a3 & a4 & a5) & (b1 & b2 & b3 & b4 & b5) & S). split; [split; [assumption|split; [lra|assumption]]|]. split; [split; [assumption|split; [lra|assumption]]|exact S]. }
      assert (S1 : sound_pld r1) by (apply SD; split; [|split]; assumption).
      assert (SDD : sound_pld D) by (apply SD; split; [|split]; assumption).
      assert (B0 : pld_bounds I0 silent) by (apply (identity_bounds (1/2)); [lra | reflexivity]).
      destruct (pld_compose_step I0 D 0 r1 silent (fun _ => E0)) as [Wr1 Br1]; [apply sound_wide, SD, identity_good; lra | exact SDD | exact C1 | exact B0 | intros; exact B|].
      destruct (pld_compose_step r1 D 0 r2 _ (fun _ => E0) Wr1 SDD C2 Br1 (fun _ _ => B)) as [Wr2 Br2].
      apply wide_delta_sound; assumption. }
    pose proof (Lo _ Sd). split; [lra|]. split; [exact HI|]. intros X. apply Lo in X. lra.
  Qed.
End RR.

(** ** An instance of the soundness theorem *)
Definition coin_laplace : xr -> xr -> res pld := fun _ _ => Ok coin_pld.
Definition no_pld2 : xr -> xr -> res pld := fun _ _ => Err ValueError.
Definition no_pld3 : xr -> list xr -> list xr -> res pld := fun _ _ _ => Err ValueError.
Definition coin_mech : event num -> exper -> Prop := fun _ => pld_bounds coin_pld.
Definition two_laplaces : list (event num * Z) := [(Laplace (PyFloat 1), 2%Z)].
Lemma coin_run_sound : Forall (run_sound no_pld2 coin_laplace no_pld3 REPLACE_ONE 0 coin_mech) (history_runs two_laplaces).
Proof.
  constructor; [|constructor]. intros D [= <-]. split; [exact coin_sound|]. split; [intros E H; exact H|]. split; cbn [coin_pld new_pld pmf_remove pmf_add half_pmf infinity_mass]; rewrite Rminus_0_r, pow1; lra.
Qed.
Lemma coin_runs : exists A0 A E, pld_new (ln 2) = Ok A0 /\ runs (pld_mc no_pld2 coin_laplace no_pld3 (fun k => k) REPLACE_ONE (ln 2) 0) A0 two_laplaces A /\
  interaction (run_classes coin_mech (history_runs two_laplaces)) E.
Proof.
  destruct (self_example 1) as (r & E). change (Z.of_nat 2) with 2%Z in E.
  destruct (bits_interact 2) as [F HF].
  assert (G : good_pld (ln 2) r).
  { assert (HS : symmetric coin_pld = true -> pmf_add coin_pld = pmf_remove coin_pld) by reflexivity.
    destruct (pld_self_inv _ _ _ _ _ E HS) as (C1 & C2 & SR).
    assert (K : forall p, pmf_self_compose (fun k => k) (half_pmf true) 2 0 = Ok p -> good_pmf (ln 2) p).
    { intros p Hp. apply self_compose_ok in Hp; [|intros; lia | apply half_wf | cbn; lra | lra].
      pose proof (so_exact _ _ _ _ Hp eq_refl) as Pw. split; [apply (pw_wf _ _ _ Pw)|]. split; [apply (pw_pess _ _ _ Pw)|]. split; [apply (pw_disc _ _ _ Pw)|].
      assert (Ip : infinity_mass p = 0) by (pose proof (pw_inf _ _ _ Pw) as X; cbn [half_pmf infinity_mass] in X; rewrite Rminus_0_r, pow1 in X; lra). split; [exact Ip|].
      rewrite (pw_sum _ _ _ Pw). change (Z.to_nat 2) with 2%nat. cbn [pown]. unfold psum, half_pmf, dsum. cbn. lra. }
    split; [apply K, C1 | split; [apply K, C2 | exact SR]]. }
  assert (L2 : 0 < ln 2) by (rewrite <- ln_1; apply ln_increasing; lra).
  destruct (good_pld_compose _ _ _ (identity_good (ln 2) L2) G) as (r1 & C1 & _).
  eexists _, _, F. split; [reflexivity|]. split; [|exact HF].
  eapply runs_cons; [|apply runs_nil].
  cbn [acc_compose acc_state acc_ledger]. cbn [pld_mc nval xeqb]. change (builder_compose new_builder (Laplace (PyFloat 1)) 2) with (mkBuilder [(Laplace (PyFloat 1), 2%Z)] None, @Ok unit tt).
  cbn iota. rewrite Reqb_false by lra. unfold self_composed, coin_laplace. cbn [bind]. rewrite E. unfold pld_charge. cbn [bind cur_pld]. rewrite C1. reflexivity.
Qed.

(** ** An instance of adaptive composition *)
Lemma all_coin (Cs : list (exper -> Prop)) : Forall (fun C : exper -> Prop => C coin) Cs -> exists E, interaction Cs E.
Proof.
  induction Cs as [|C Cs IH] using rev_ind; intros F; [exists silent; constructor|].
  apply Forall_app in F. destruct F as [F1 F2]. inversion_clear F2 as [|? ? H _]. destruct (IH F1) as [E HE].
  exists (seq_exper E (fun _ => coin)). constructor; [exact HE | intros; exact H].
Qed.
Lemma unit_g1 frac fuel rel : unit_charge frac fuel rel [Fin 2] (Gaussian (PyFloat 1)) = [Fin 1].
Proof.
  unfold unit_charge. cbn [acc_compose]. rewrite (rdp_dry_pure frac fuel).
  change (rdp_dry frac fuel rel [Fin 2] (Gaussian (PyFloat 1))) with Fine. cbn [builder_compose]. change (1 <? 1)%Z with false. cbn iota.
  rewrite g1. cbn [fst acc_state rdp_new map]. rewrite vec1. f_equal. f_equal. lra.
Qed.
Lemma adaptive_example frac fuel rel : exists A E, runs (rdp_mc frac fuel rel [Fin 2]) (rdp_new [Fin 2]) two_gaussians A /\
  interaction (map (fun a => rdp_curve [Fin 2] (unit_charge frac fuel rel [Fin 2] a)) (history_atoms two_gaussians)) E /\
  length (history_atoms two_gaussians) = 7%nat.
Proof.
  destruct (gaussians_run frac fuel rel) as (A & HA & _). exists A.
  destruct (all_coin (map (fun a => rdp_curve [Fin 2] (unit_charge frac fuel rel [Fin 2] a)) (history_atoms two_gaussians))) as [E HE].
  - change (history_atoms two_gaussians) with (repeat (@Gaussian num (PyFloat 1)) 7). cbn [repeat map]. rewrite !unit_g1.
    repeat (apply Forall_cons; [apply coin_eps|]). apply Forall_nil.
  - exists E. split; [exact HA|]. split; [exact HE | reflexivity].
Qed.
