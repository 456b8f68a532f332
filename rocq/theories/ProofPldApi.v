(** The pmf lemmas restated for PrivacyLossDistribution objects, and example objects. *)
From Coq Require Import Sorting.Sorted.
From Verif Require Import Base XReal Exn PyDict ModelCommon ModelPmf ModelPld SpecDP SpecPmf SpecPld
  ProofDP ProofDict ProofPmf ProofCompose ProofCompose2 ProofQuery ProofPld ProofSelf ProofComposed ProofSelfDP.

Lemma Rle_max_compat a b c d : a <= b -> c <= d -> Rmax a c <= Rmax b d.
Proof. intros. apply Rmax_lub; [eapply Rle_trans; [eassumption | apply Rmax_l] | eapply Rle_trans; [eassumption | apply Rmax_r]]. Qed.

Lemma pld_delta_max D e : wf_pld D ->
  pld_delta D e = Rmax (pmf_delta (pmf_remove D) e) (pmf_delta (pmf_add D) e).
Proof.
  intros (_ & _ & HS). unfold pld_delta. destruct (symmetric D); [|reflexivity].
  rewrite HS by reflexivity. rewrite Rmax_left; lra.
Qed.

Lemma pld_monotone D e1 e2 : wf_pld D -> e1 <= e2 -> pld_delta D (Fin e2) <= pld_delta D (Fin e1).
Proof.
  intros W H. rewrite !pld_delta_max by assumption. destruct W as (W1 & W2 & _).
  apply Rle_max_compat; apply delta_monotone; assumption.
Qed.

Lemma pld_delta_range D e k1 k2 : wf_pld D -> covers k1 (pmf_remove D) -> covers k2 (pmf_add D) ->
  Rmax (infinity_mass (pmf_remove D)) (infinity_mass (pmf_add D)) <= pld_delta D (Fin e) <=
  Rmax (infinity_mass (pmf_remove D) + rsum (mass (pmf_remove D)) k1)
       (infinity_mass (pmf_add D) + rsum (mass (pmf_add D)) k2).
Proof.
  intros W C1 C2. rewrite !pld_delta_max by assumption. destruct W as (W1 & W2 & _).
  pose proof (delta_bounds _ k1 e W1 C1). pose proof (delta_bounds _ k2 e W2 C2).
  split; apply Rle_max_compat; lra.
Qed.

Lemma pld_delta_above D e : wf_pld D ->
  (forall k, mass (pmf_remove D) k <> 0 -> IZR k * discretization (pmf_remove D) <= e) ->
  (forall k, mass (pmf_add D) k <> 0 -> IZR k * discretization (pmf_add D) <= e) ->
  pld_delta D (Fin e) = Rmax (infinity_mass (pmf_remove D)) (infinity_mass (pmf_add D)).
Proof.
  intros W H1 H2. rewrite !pld_delta_max by assumption. destruct W as (W1 & W2 & _).
  rewrite !delta_above by assumption. reflexivity.
Qed.

Lemma pld_delta_convex D t e1 e2 e : wf_pld D -> 0 <= t <= 1 ->
  exp e = t * exp e1 + (1 - t) * exp e2 ->
  pld_delta D (Fin e) <= t * pld_delta D (Fin e1) + (1 - t) * pld_delta D (Fin e2).
Proof.
  intros W Ht He. rewrite !pld_delta_max by assumption. destruct W as (W1 & W2 & _).
  pose proof (delta_convex _ t e1 e2 e W1 Ht He). pose proof (delta_convex _ t e1 e2 e W2 Ht He).
  pose proof (Rmax_l (pmf_delta (pmf_remove D) (Fin e1)) (pmf_delta (pmf_add D) (Fin e1))).
  pose proof (Rmax_r (pmf_delta (pmf_remove D) (Fin e1)) (pmf_delta (pmf_add D) (Fin e1))).
  pose proof (Rmax_l (pmf_delta (pmf_remove D) (Fin e2)) (pmf_delta (pmf_add D) (Fin e2))).
  pose proof (Rmax_r (pmf_delta (pmf_remove D) (Fin e2)) (pmf_delta (pmf_add D) (Fin e2))).
  apply Rmax_lub; nra.
Qed.

Lemma compose_wf_pld D D' tail r : wf_pld D -> wf_pld D' ->
  infinity_mass (pmf_remove D) <= 1 -> infinity_mass (pmf_add D) <= 1 ->
  pld_compose D D' tail = Ok r -> wf_pld r.
Proof.
  intros (W1 & W2 & S) (W1' & W2' & S') I1 I2 H.
  destruct (pld_compose_inv _ _ _ _ H S S') as (C1 & C2 & SR).
  apply compose_pmfs_ok in C1; [|assumption..]. apply compose_pmfs_ok in C2; [|assumption..].
  split; [exact (compose_wf _ _ _ _ W1 W1' (or_introl I1) C1)|].
  split; [exact (compose_wf _ _ _ _ W2 W2' (or_introl I2) C2) | assumption].
Qed.

Lemma pld_truncation D D' tail r0 r e :
  wf_pld D -> wf_pld D' -> inf_le_1 D -> inf_le_1 D' -> 0 <= tail ->
  pld_compose D D' 0 = Ok r0 -> pld_compose D D' tail = Ok r ->
  (pessimistic_estimate (pmf_remove D) = true -> pessimistic_estimate (pmf_add D) = true ->
     pld_delta r0 (Fin e) <= pld_delta r (Fin e) <= pld_delta r0 (Fin e) + tail /\
     pld_delta r MInf = pld_delta r0 MInf) /\
  (pessimistic_estimate (pmf_remove D) = false -> pessimistic_estimate (pmf_add D) = false ->
     pld_delta r (Fin e) <= pld_delta r0 (Fin e) <= pld_delta r (Fin e) + tail).
Proof.
  intros W W' [I1 I2] [I1' I2'] Ht H0 H.
  pose proof (compose_wf_pld _ _ _ _ W W' I1 I2 H0) as WR0.
  pose proof (compose_wf_pld _ _ _ _ W W' I1 I2 H) as WR.
  rewrite !pld_delta_max by assumption.
  destruct W as (W1 & W2 & S), W' as (W1' & W2' & S').
  destruct (pld_compose_inv _ _ _ _ H0 S S') as (A1 & A2 & _).
  destruct (pld_compose_inv _ _ _ _ H S S') as (B1 & B2 & _).
  destruct (truncation _ _ tail _ _ e W1 W1' I1 I1' Ht A1 B1) as [T1 U1].
  destruct (truncation _ _ tail _ _ e W2 W2' I2 I2' Ht A2 B2) as [T2 U2].
  split; intros P1 P2.
  - destruct (T1 P1) as [X1 Y1]. destruct (T2 P2) as [X2 Y2]. rewrite Y1, Y2. split; [|reflexivity].
    split; [apply Rle_max_compat; lra|]. apply Rmax_lub.
    + eapply Rle_trans; [apply X1|]. apply Rplus_le_compat_r, Rmax_l.
    + eapply Rle_trans; [apply X2|]. apply Rplus_le_compat_r, Rmax_r.
  - specialize (U1 P1). specialize (U2 P2).
    split; [apply Rle_max_compat; lra|]. apply Rmax_lub.
    + eapply Rle_trans; [apply U1|]. apply Rplus_le_compat_r, Rmax_l.
    + eapply Rle_trans; [apply U2|]. apply Rplus_le_compat_r, Rmax_r.
Qed.

Lemma compose_total_mass p q tail kp kq : wf p -> wf q -> covers kp p -> covers kq q ->
  discretization p = discretization q -> pessimistic_estimate p = pessimistic_estimate q ->
  pmf_size p <> 0%nat -> pmf_size q <> 0%nat ->
  0 <= tail -> (tail = 0 \/ tail / 2 < rsum (mass p) kp * rsum (mass q) kq) ->
  exists r, compose_pmfs p q tail = Ok r.
Proof.
  intros Wp Wq Cp Cq HD HP Sp Sq Ht HM. apply compose_total; auto.
  rewrite (psum_covers p kp) by assumption. rewrite (psum_covers q kq) by assumption.
  rewrite (rsum_ext (fun k => mass p k * 1) (mass p)) by (intros; apply Rmult_1_r).
  rewrite (rsum_ext (fun k => mass q k * 1) (mass q)) by (intros; apply Rmult_1_r). assumption.
Qed.

Lemma self_total_mass fast_len p ks n tail : wf p -> covers ks p -> pmf_size p <> 0%nat ->
  0 < rsum (mass p) ks -> infinity_mass p < 1 -> (1 <= n)%Z -> 0 <= tail ->
  (tail = 0 \/ tail / 2 < rsum (mass p) ks ^ Z.to_nat n) ->
  exists r, pmf_self_compose fast_len p n tail = Ok r.
Proof.
  intros W C HS HM HI Hn Ht HT.
  assert (E : psum p (fun _ => 1) = rsum (mass p) ks) by (rewrite (psum_covers p ks) by assumption; apply rsum_ext; intros; apply Rmult_1_r).
  apply pmf_self_total; auto; rewrite E; assumption.
Qed.

(** ** example objects *)
Definition half_pmf (pess : bool) : pmf := mkPmf (ln 2) 0 pess (Sparse [(1%Z, 2/3); ((-1)%Z, 1/3)]).
Definition coin_pld : pld := new_pld (half_pmf true) None.
Definition skew_pld : pld :=
  new_pld (half_pmf true) (Some (mkPmf (ln 2) (1/4) true (Dense 0 [1/4; 1/2]))).

Lemma half_wf b : wf (half_pmf b).
Proof.
  split; [apply Rlt_le_trans with (1/2); [lra|]; pose proof ln_lt_2; simpl; lra|].
  split; [simpl; lra|]. split.
  - intros k. unfold mass, half_pmf, dget0; cbn [pmf_body dget].
    repeat match goal with |- context [Z.eqb ?a ?b] => destruct (Z.eqb a b) end; lra.
  - cbn. repeat constructor; simpl; intuition discriminate.
Qed.

Lemma half_covers b : covers [1%Z; (-1)%Z] (half_pmf b).
Proof.
  split; [repeat constructor; simpl; intuition discriminate|].
  intros k. unfold mass, half_pmf, dget0; cbn [pmf_body dget].
  destruct (Z.eqb_spec 1 k) as [->|]; [intros; left; reflexivity|].
  destruct (Z.eqb_spec (-1) k) as [->|]; [intros; right; left; reflexivity | intros []; reflexivity].
Qed.

Lemma dense_wf : wf (mkPmf (ln 2) (1/4) true (Dense 0 [1/4; 1/2])).
Proof.
  split; [apply (half_wf true)|]. split; [simpl; lra|]. split; [|exact I].
  intros k. unfold mass; cbn [pmf_body]. destruct (k <? 0)%Z; [lra|].
  destruct (Z.to_nat (k - 0)) as [|[|[|?]]]; simpl; lra.
Qed.

Lemma coin_sound : sound_pld coin_pld.
Proof.
  assert (sound_pmf (half_pmf true)) by (split; [apply half_wf | split; [simpl; lra | reflexivity]]).
  split; [assumption|]. split; [assumption | reflexivity].
Qed.
Lemma skew_sound : sound_pld skew_pld.
Proof.
  split; [apply coin_sound|]. split; [|discriminate].
  split; [apply dense_wf | split; [simpl; lra | reflexivity]].
Qed.
Lemma sound_wf D : sound_pld D -> wf_pld D.
Proof. intros ((A & _) & (B & _) & C). split; auto. Qed.

(** randomized response on one bit, bounded by [coin_pld] *)
Definition bit : exper :=
  mkExper bool [true; false] (fun b => if b then 2/3 else 1/3) (fun b => if b then 1/3 else 2/3).
Lemma bit_bounds : pld_bounds coin_pld bit.
Proof.
  assert (V : valid bit).
  { split; [|cbn; lra]. intros [|] _; cbn; lra. }
  assert (X : forall e, pmf_delta (half_pmf true) (Fin e) = pos (2/3 - exp e * (1/3)) + pos (1/3 - exp e * (2/3))).
  { intros e. rewrite (delta_formula _ _ _ (half_wf true) (half_covers true)). unfold curve_at, mass, half_pmf.
    cbn [pmf_body rsum dget0 dget discretization infinity_mass Z.eqb Pos.eqb]. unfold dget0; cbn. 
    replace (e - 1 * ln 2) with (e + - ln 2) by lra. replace (e - -1 * ln 2) with (e + ln 2) by lra.
    rewrite !exp_plus, exp_Ropp, exp_ln by lra. unfold pos.
    rewrite <- !RmaxRmult by lra. rewrite !Rmult_0_r.
    replace (2/3 * (1 - exp e * / 2)) with (2/3 - exp e * (1/3)) by field.
    replace (1/3 * (1 - exp e * 2)) with (1/3 - exp e * (2/3)) by field. lra. }
  split; [exact V|]. cbn [coin_pld new_pld pmf_remove pmf_add].
  split; intros e; apply dp_iff_hockey; rewrite X; unfold hockey_stick; cbn; lra.
Qed.

Lemma bits_interact n : exists E, interaction (repeat (pld_bounds coin_pld) n) E.
Proof.
  induction n as [|n [E IH]]; [exists silent; constructor|].
  exists (seq_exper E (fun _ => bit)).
  change (repeat (pld_bounds coin_pld) (S n)) with (pld_bounds coin_pld :: repeat (pld_bounds coin_pld) n).
  rewrite repeat_cons. constructor; [assumption | intros; apply bit_bounds].
Qed.

Lemma size_of_psum p : 0 < psum p (fun _ => 1) -> pmf_size p <> 0%nat.
Proof.
  unfold psum, pmf_size. destruct (pmf_body p) as [d|lo l]; [destruct d | destruct l]; cbn; try lra; discriminate.
Qed.

Lemma coin_composes n : exists I D, identity (ln 2) = Ok I /\
  compose_all I (repeat (coin_pld, 0) n) = Ok D.
Proof.
  assert (K : forall n P, symmetric P = true -> wf (pmf_remove P) -> infinity_mass (pmf_remove P) <= 1 ->
    discretization (pmf_remove P) = ln 2 -> pessimistic_estimate (pmf_remove P) = true ->
    0 < psum (pmf_remove P) (fun _ => 1) -> exists D, compose_all P (repeat (coin_pld, 0) n) = Ok D).
  { clear n. induction n as [|n IH]; intros P HS W I1 HD HP HN; [eexists; reflexivity|].
    cbn [repeat compose_all].
    destruct (compose_total (pmf_remove P) (half_pmf true) 0 W (half_wf true)) as [r E]; auto; try lra;
      [apply size_of_psum; assumption | discriminate|].
    unfold pld_compose. cbn [coin_pld new_pld pmf_remove pmf_add symmetric]. rewrite E. cbn [bind].
    rewrite HS. cbn [andb]. pose proof (compose_pmfs_ok _ _ _ _ W (half_wf true) E) as C.
    destruct (co_exact _ _ _ _ C eq_refl) as [X Y].
    apply IH; cbn [new_pld pmf_remove symmetric]; auto.
    - exact (compose_wf _ _ _ _ W (half_wf true) (or_introl I1) C).
    - rewrite Y. unfold combine_inf. cbn. lra.
    - rewrite (co_rdisc _ _ _ _ C). assumption.
    - rewrite (co_rpess _ _ _ _ C). assumption.
    - rewrite X. unfold conv2.
      assert (H1 : psum (half_pmf true) (fun _ => 1) = 1) by (unfold psum; cbn; lra).
      rewrite (psum_ext _ _ (fun _ => 1)); [assumption | intros; exact H1]. }
  eexists. destruct (K n (new_pld (mkPmf (ln 2) 0 true (Sparse [(0%Z, 1)])) None)) as [D HD];
    cbn; auto; try lra.
  - apply identity_wf. apply (half_wf true).
  - exists D. split; [apply identity_eq | exact HD].
Qed.

(** ** refuted claims *)
Lemma epsilon_not_smallest : exists D e e',
  wf_pld D /\ pld_epsilon D 0 = Ok (Fin e) /\ 0 <= e' < e /\ pld_delta D (Fin e') <= 0.
Proof.
  set (p := mkPmf 1 0 true (Dense 0 [1; 0])).
  assert (W : wf p).
  { split; [simpl; lra|]. split; [simpl; lra|]. split; [|exact I].
    intros k. unfold mass; cbn [pmf_body p]. destruct (k <? 0)%Z; [lra|].
    destruct (Z.to_nat (k - 0)) as [|[|[|?]]]; simpl; lra. }
  exists (new_pld p None), 1, 0. split; [split; [assumption | split; [assumption | reflexivity]]|].
  split.
  - unfold pld_epsilon, pmf_epsilon, epsilon_for_delta. cbn [new_pld pmf_remove symmetric p infinity_mass].
    rewrite (Rltb_false 0 0) by lra. unfold reversed_losses. cbn -[exp ln Rmax Rltb Rleb Reqb].
    rewrite (Rltb_false 0 0) by lra. cbn [andb].
    replace (0 + 0) with 0 by lra.
    replace (0 + exp (- (1 * 1 - 0 * 1)) * 0) with 0 by lra.
    rewrite (Rleb_true 0 0) by lra. rewrite Reqb_refl. cbn [andb bind].
    do 2 f_equal. replace (1 * 1 - 0 * 1) with 1 by lra. apply Rmax_right. lra.
  - split; [lra|]. unfold pld_delta; cbn [new_pld pmf_remove symmetric].
    rewrite delta_above; [simpl; lra | assumption |].
    intros k. unfold mass; cbn [pmf_body p]. destruct (Z.ltb_spec k 0); [congruence|].
    destruct (Z.eq_dec k 0) as [->|]; [intros; simpl; lra|].
    intros H0. exfalso. apply H0. destruct (Z.to_nat (k - 0)) as [|[|[|?]]] eqn:E; try reflexivity. lia.
Qed.

Lemma compose_raises : exists D tail, sound_pld D /\ 0 < tail /\
  pld_compose D D tail = Err IndexError.
Proof.
  set (p := mkPmf 1 1 true (Sparse [(1%Z, 0)])).
  assert (W : wf p).
  { split; [simpl; lra|]. split; [simpl; lra|]. split; [|repeat constructor; simpl; tauto].
    intros k. unfold mass, dget0; cbn [pmf_body p dget]. repeat match goal with |- context [Z.eqb ?a ?b] => destruct (Z.eqb a b) end; lra. }
  assert (S : sound_pmf p) by (split; [assumption | split; [simpl; lra | reflexivity]]).
  exists (new_pld p None), (1/2). split; [split; [exact S | split; [exact S | reflexivity]]|].
  split; [lra|]. unfold pld_compose, compose_pmfs, pmf_compose, validate_composable.
  cbn -[truncate_tails Reqb]. rewrite Reqb_refl. cbn -[truncate_tails Reqb].
  unfold truncate_tails, find_prefix. cbn -[Reqb Rltb].
  destruct (Reqb_spec (1/2) 0); [lra|].
  rewrite !(Rltb_false (1 / 2 / 2)) by (cbn; lra). cbn -[Rltb].
  rewrite ?(Rltb_false (1 / 2 / 2)) by (cbn; lra). reflexivity.
Qed.

(** ** for the examples of the property file *)
Lemma vectorised_delta D (eps : list R) : wf_pld D ->
  (Sorted Rle eps ->
     pld_delta_vectorized D (map Fin eps) = Ok (map (fun e => pld_delta D (Fin e)) eps)) /\
  (~ Sorted Rle eps -> pld_delta_vectorized D (map Fin eps) = Err ValueError).
Proof.
  intros (W1 & W2 & _). rewrite pld_vectorized; auto.
  2:{ intros e He. apply in_map_iff in He. destruct He as (x & <- & _). discriminate. }
  rewrite map_map. split; intros H.
  - apply eps_sorted_fin in H. rewrite H. reflexivity.
  - destruct (eps_sorted (map Fin eps)) eqn:E; [|reflexivity]. apply eps_sorted_fin in E. contradiction.
Qed.

Lemma vectorised_delta_infinite D (eps : list xr) ds : wf_pld D ->
  (forall e, In e eps -> e <> NaN) ->
  pld_delta_vectorized D eps = Ok ds -> ds = map (pld_delta D) eps.
Proof.
  intros (W1 & W2 & _) HN. rewrite pld_vectorized; auto.
  destruct (eps_sorted eps); [|discriminate]. intros H. injection H as <-. reflexivity.
Qed.

Lemma vectorised_example :
  pld_delta_vectorized skew_pld (map Fin [-1; 0; 0; 1]) =
  Ok [pld_delta skew_pld (Fin (-1)); pld_delta skew_pld (Fin 0);
      pld_delta skew_pld (Fin 0); pld_delta skew_pld (Fin 1)].
Proof.
  destruct (vectorised_delta skew_pld [-1; 0; 0; 1] (sound_wf _ skew_sound)) as [H _].
  rewrite H; [reflexivity|]. repeat constructor; lra.
Qed.

Lemma coin_positive kv : In kv (losses_probs (pmf_remove coin_pld)) -> 0 < snd kv.
Proof. cbn. intros [<-|[<-|[]]]; unfold dget0; cbn; lra. Qed.

Lemma half_total : rsum (mass (half_pmf true)) [1%Z; (-1)%Z] = 1.
Proof. unfold mass, dget0; cbn. lra. Qed.

Lemma coin_compose tail : 0 <= tail < 2 -> exists r, pld_compose coin_pld coin_pld tail = Ok r.
Proof.
  intros Ht. destruct (compose_total_mass (half_pmf true) (half_pmf true) tail _ _ (half_wf true) (half_wf true)
    (half_covers true) (half_covers true)) as [r E]; auto; try discriminate; try lra.
  - right. rewrite half_total. lra.
  - unfold pld_compose. cbn [coin_pld new_pld pmf_remove pmf_add symmetric]. rewrite E. cbn. eauto.
Qed.

Lemma truncation_example : exists r0 r, pld_compose coin_pld coin_pld 0 = Ok r0 /\
  pld_compose coin_pld coin_pld (1/2) = Ok r.
Proof.
  destruct (coin_compose 0) as [r0 E0]; [lra|]. destruct (coin_compose (1/2)) as [r E]; [lra|]. eauto.
Qed.

Lemma convolution_example : wf (pmf_remove skew_pld) /\ wf (pmf_add skew_pld) /\
  exists r, compose_pmfs (pmf_remove skew_pld) (pmf_add skew_pld) 0 = Ok r.
Proof.
  split; [apply half_wf|]. split; [apply dense_wf|].
  apply compose_total; try apply half_wf; try apply dense_wf; auto; try discriminate; lra.
Qed.

Lemma composed_example : exists r, pld_compose coin_pld skew_pld 0 = Ok r.
Proof.
  destruct (coin_compose 0) as [r0 E0]; [lra|].
  destruct (compose_total (half_pmf true) (pmf_add skew_pld) 0 (half_wf true) dense_wf) as [a E];
    auto; try discriminate; try lra.
  destruct (compose_total (half_pmf true) (half_pmf true) 0 (half_wf true) (half_wf true)) as [b E'];
    auto; try discriminate; try lra.
  unfold pld_compose. cbn [skew_pld coin_pld new_pld pmf_remove pmf_add symmetric andb] in *.
  rewrite E'. cbn [bind]. rewrite E. cbn. eauto.
Qed.

Lemma self_example n : exists r, pld_self_compose (fun k => k) coin_pld (Z.of_nat (S n)) 0 = Ok r.
Proof.
  destruct (self_total_mass (fun k => k) (half_pmf true) [1%Z; (-1)%Z] (Z.of_nat (S n)) 0 (half_wf true)
    (half_covers true)) as [r E].
  - discriminate.
  - rewrite half_total. lra.
  - simpl. lra.
  - lia.
  - lra.
  - left; reflexivity.
  - unfold pld_self_compose. cbn [coin_pld new_pld pmf_remove pmf_add symmetric]. rewrite E. cbn. eauto.
Qed.

Lemma bounds_example : exists b, compute_self_convolve_bounds [1/2; 1/4; 1/4] 100 (1/1000) None = Ok b.
Proof.
  apply bounds_total; [|cbn; lra | lra]. intros x [<-|[<-|[<-|[]]]]; lra.
Qed.
