(** Concrete instances for the RDP theorems. *)
From Verif Require Import Base XReal Exn SpecDP SpecRenyi SpecRdp SpecMake TypesEvent TypesRelation ModelMake ModelRdp
  ProofDP ProofRR ProofRenyi ProofRdpMath ProofConv ProofMono ProofRRRdp ProofPoisson ProofTree ProofGamma.
Local Arguments Rltb : simpl never.
Local Arguments Rleb : simpl never.
Local Arguments Reqb : simpl never.

(** A bound on the max divergence bounds the divergence of every order. *)
Lemma max_order E a r : valid E -> absolutely_continuous E -> 1 < a ->
  (forall o, In o (outs E) -> prP E o <= exp r * prQ E o) -> renyi_bounded E (Fin a) (Fin r).
Proof.
  intros V AC Ha H. split; [assumption|]. split; [lra|].
  apply renyi_moment_le; [assumption | assumption | lra|]. unfold renyi_moment.
  apply Rle_trans with (rsum (fun o => exp ((a - 1) * r) * prP E o) (outs E));
    [|rewrite rsum_scal, (P_sum E V); lra]. apply rsum_le. intros o Ho.
  destruct (Reqb_spec (prP E o) 0) as [Z|N]; [rewrite Z; lra|].
  destruct (Q_gt E V AC o Ho N) as [HP HQ]. rewrite (Rmult_comm (exp _)).
  apply Rmult_le_compat_l; [lra|].
  replace (exp ((a - 1) * r)) with (Rpower (exp r) (a - 1)) by (unfold Rpower; rewrite ln_exp; reflexivity).
  apply Rle_Rpower_l; [lra|]. split; [apply Rdiv_lt_0_compat; assumption|].
  apply (Rmult_le_reg_r (prQ E o)); [assumption|].
  replace (prP E o / prQ E o * prQ E o) with (prP E o) by (field; lra). apply H. assumption.
Qed.

Lemma coin_gauss i : (2 <= i)%nat -> renyi_bounded coin (Fin (INR i)) (Fin (INR i / (2 * (1 * 1)))).
Proof.
  intros Hi. pose proof (INR_ge2 i Hi) as I2.
  destruct (max_order coin (INR i) 1 coin_valid (proj1 coin_ac) ltac:(lra) (fun o _ => proj1 (coin_max o))) as (AC & _ & B).
  split; [assumption|]. split; lra.
Qed.

Lemma coin_eps : rdp_curve [Fin 2] [Fin 1] coin /\
  exists e, compute_epsilon [Fin 2] [Fin 1] (1/10) = Ok (Fin e, Fin 2) /\ 1 < e.
Proof.
  split.
  - destruct coin_curve as (V & _ & B). split; [assumption|]. split; [reflexivity|].
    intros a r [[= <- <-]|[]]. apply B. left. reflexivity.
  - exists (1 + ln (1 - / 2) - ln (1/10 * 2) / (2 - 1)).
    assert (P : 1 < 1 + ln (1 - / 2) - ln (1/10 * 2) / (2 - 1)).
    { assert (ln (1/10 * 2) < ln (1 - / 2)) by (apply ln_increasing; lra).
      replace (ln (1/10 * 2) / (2 - 1)) with (ln (1/10 * 2)) by field. lra. }
    split; [|assumption]. unfold compute_epsilon. rewrite Rltb_false, Reqb_false by lra.
    cbn [length Nat.eqb negb combine map_res fst snd bind xltb]. rewrite Rltb_false by lra. cbn [bind argmin argmin_from fst snd].
    rewrite eps_of_order_Fin by lra. rewrite (Rltb_false 1 0) by lra. rewrite (Rltb_false 0), (Rltb_true (101/100) 2); try lra.
    + unfold pymax. cbn [xltb]. rewrite Rltb_true by lra. reflexivity.
    + pose proof exp1_gt2. rewrite exp_Ropp. assert (/ exp 1 < / 2) by (apply Rinv_lt_contravar; lra). lra.
Qed.

Lemma rr_ex : exists v, rdp_randomized_response (Fin (1/2)) 3 [Fin 2; PInf] REPLACE_ONE = Ok v /\
  rr_pair REPLACE_ONE (1/2) 3 (rr_exper (1/2) 3 0 1).
Proof.
  destruct (rr_rdp_total (1/2) 3 [Fin 2; PInf] REPLACE_ONE) as (v & H & _); [lra | lia | |].
  - intros a [<-|[<-|[]]]; [left; exists 2; split; [reflexivity | lra] | right; reflexivity].
  - exists v. split; [exact H|]. exists 0%Z, 1%Z.
    split; [apply buckets_In; lia|]. split; [apply buckets_In; lia|]. split; [lia | reflexivity].
Qed.

Lemma tree_ex : exists v, rdp_tree (Fin 1) (Trees [5; 8; 3]%Z) [Fin 2] = Ok v /\ nodes_of_step 8 0 = 4%nat /\ nodes_of_step 5 4 = 1%nat.
Proof.
  eexists. split; [|split; reflexivity]. unfold rdp_tree. cbn [xltb xeqb]. rewrite Rltb_false, Reqb_false by lra. reflexivity.
Qed.

Lemma delta_inf_order orders rdp eps E d o :
  rdp_curve (PInf :: orders) rdp E -> good_orders orders ->
  compute_delta (PInf :: orders) rdp (Fin eps) = Ok (d, o) ->
  exists x, d = Fin x /\ 0 <= x <= 1 /\ dp_both E eps x.
Proof.
  intros C G. apply delta_sound; [assumption|]. intros a [<-|Ha]; [exists 0; right; reflexivity | apply G; assumption].
Qed.
