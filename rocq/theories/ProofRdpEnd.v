(** The RDP accountant on the computations its events describe. *)
From Coq Require Import Permutation.
From Verif Require Import Base XReal Exn TypesEvent TypesRelation SpecEvent SpecDP SpecMake SpecMech SpecRenyi SpecRdp SpecNoiseAcc SpecAccPld SpecAccountant SpecSelect SpecWor SpecRdpEvent.
From Verif Require Import ModelBuilder ModelRdp ModelAccountant ProofDP ProofRenyi ProofPeak ProofConv ProofTree ProofRRRdp ProofNoiseAcc ProofAccGen ProofAccRdp ProofAccAdd ProofAccMono ProofAccSound ProofRdpAtom ProofRdpSample ProofWor ProofSelectSound.
Local Arguments Rltb : simpl never.
Local Arguments Rleb : simpl never.
Local Arguments Reqb : simpl never.

(** ** Trees *)
Definition hits (k t : nat) (v : tree_node) : bool := ((fst v =? k)%nat && covers (snd v) t)%bool.
Lemma late_step n t : (n <= t)%nat -> nodes_of_step n t = 0%nat.
Proof.
  intros H. unfold nodes_of_step. replace (filter (fun v => covers v t) (tree_nodes n)) with (@nil (nat * nat)); [reflexivity|].
  symmetry. unfold tree_nodes. induction (list_prod (seq 0 (S n)) (seq 0 (S n))) as [|v l IH]; [reflexivity|]. cbn [filter].
  destruct (complete n v) eqn:C; [|exact IH]. cbn [filter]. rewrite IH. destruct (covers v t) eqn:D; [|reflexivity]. exfalso.
  unfold complete in C. unfold covers in D. apply andb_prop in D. destruct D as [_ D]. apply Nat.leb_le in C. apply Nat.ltb_lt in D. lia.
Qed.
Lemma hits_other k j t l : k <> j -> filter (hits k t) (map (pair j) l) = [].
Proof.
  intros N. induction l as [|v l IH]; [reflexivity|]. cbn [map filter]. unfold hits at 1. cbn [fst]. destruct (Nat.eqb_spec j k); [congruence|]. exact IH.
Qed.
Lemma hits_same k t l : length (filter (hits k t) (map (pair k) l)) = length (filter (fun v => covers v t) l).
Proof.
  induction l as [|v l IH]; [reflexivity|]. cbn [map filter]. unfold hits at 1. cbn [fst snd]. rewrite Nat.eqb_refl. cbn [andb]. destruct (covers v t); cbn [length]; congruence.
Qed.
Lemma forest_above counts : forall j k t, (k < j)%nat -> filter (hits k t) (forest j counts) = [].
Proof.
  induction counts as [|z counts IH]; intros j k t H; [reflexivity|]. cbn [forest]. rewrite filter_app, hits_other, IH by lia. reflexivity.
Qed.
Lemma forest_hits counts d t : (forall z, In z counts -> (nodes_of_step (Z.to_nat z) t <= d)%nat) -> forall j k,
  (length (filter (hits k t) (forest j counts)) <= d)%nat.
Proof.
  induction counts as [|z counts IH]; intros H j k; [cbn; lia|]. cbn [forest]. rewrite filter_app, app_length. destruct (Nat.eq_dec k j) as [->|N].
  - rewrite hits_same, forest_above by lia. cbn [length]. rewrite Nat.add_0_r. apply H. left. reflexivity.
  - rewrite hits_other by assumption. apply IH. intros y Hy. apply H. right. exact Hy.
Qed.
Lemma filter_perm {A} (f : A -> bool) l l' : Permutation l l' -> length (filter f l) = length (filter f l').
Proof.
  induction 1 as [|x l l' _ IH|x y l|l1 l2 l3 _ IH1 _ IH2]; cbn [filter].
  - reflexivity.
  - destruct (f x); cbn; congruence.
  - destruct (f x), (f y); reflexivity.
  - congruence.
Qed.

Lemma in_combine_map {A B} (f : A -> B) l a b : In (a, b) (combine l (map f l)) -> In a l /\ b = f a.
Proof. induction l as [|x l IH]; [contradiction|]. cbn. intros [[= <- <-]|H]; [auto|]. destruct (IH H). auto. Qed.
Lemma bounded_le E a r r' : rdp_bounded E (Fin a) (Fin r) -> r <= r' -> rdp_bounded E (Fin a) (Fin r').
Proof. intros [[A1 [H1 B1]] [A2 [H2 B2]]] L. split; (split; [assumption|]); split; lra. Qed.

Section Tree.
  Context (Phi : R -> R) (HPhi : normal_cdf Phi) (sigma : R) (Hs : 0 < sigma).
  Lemma tree_interaction nodes (b : tree_node -> bool) a E : 1 <= a ->
    interaction (map (fun v => if b v then gaussian_query Phi sigma else no_leak) nodes) E ->
    valid E /\ rdp_bounded E (Fin a) (Fin (INR (length (filter b nodes)) * (a / (2 * (sigma * sigma))))).
  Proof.
    intros Ha H. set (x := a / (2 * (sigma * sigma))). set (vs := map (fun v => [if b v then Fin x else Fin 0]) nodes).
    assert (I : interaction (map (rdp_curve [Fin a]) vs) E).
    { eapply interaction_le; [exact H|]. unfold vs. rewrite map_map. clear H. induction nodes as [|v l IH]; cbn [map]; constructor; [|exact IH].
      intros F. destruct (b v); intros HF.
      - destruct (gauss_bounded Phi HPhi sigma Hs F a HF Ha) as [V B]. split; [exact V|]. split; [reflexivity|]. intros a' r' [[= <- <-]|[]]. exact B.
      - split; [apply HF|]. split; [reflexivity|]. intros a' r' [[= <- <-]|[]]. apply no_leak_bounded; [exact HF | exact Ha]. }
    apply interaction_curve in I.
    - destruct I as (V & _ & B). split; [exact V|]. apply B.
      assert (S : vec_sum (length [Fin a]) vs = [Fin (INR (length (filter b nodes)) * x)]).
      { unfold vs. clear. induction nodes as [|v l IH]; cbn [map vec_sum fold_right filter]; [cbn; f_equal; f_equal; ring|].
        unfold vec_sum in IH. rewrite IH. destruct (b v); cbn [vec_add combine map xadd fst snd length]; f_equal; f_equal; [rewrite S_INR; ring | ring]. }
      rewrite S. left. reflexivity.
    - intros b' [<-|[]]. exact Ha.
    - apply Forall_forall. unfold vs. intros v. rewrite in_map_iff. intros (w & <- & _). reflexivity.
  Qed.
  Lemma tree_bounded st orders v E : rdp_tree (Fin sigma) st orders = Ok v -> tree_release Phi sigma st E ->
    (forall a, In a orders -> order_ok a) -> (forall a, In a orders -> defined_at a (TreeAggregation (PyFloat sigma) st)) ->
    rdp_curve orders v E.
  Proof.
    intros T (k & t & nodes & P & I) HO HD.
    assert (L := tree_length _ _ _ _ T). destruct (tree_charge sigma st orders v Hs T) as (d & -> & Hz & Hd & Tight).
    assert (V : valid E) by (apply (tree_interaction nodes (hits k t) 1 E); [lra | exact I]).
    split; [exact V|]. split; [symmetry; exact L|]. intros a r Iar. apply in_combine_map in Iar. destruct Iar as [Ia ->].
    assert (N : (length (filter (hits k t) nodes) <= d)%nat).
    { rewrite (filter_perm _ _ _ P). apply forest_hits. intros z Iz. pose proof (Hz z Iz) as Z0.
      destruct (le_lt_dec (Z.to_nat z) t) as [Lt|Lt]; [rewrite late_step by assumption; lia|]. apply Hd; [rewrite Z2Nat.id; assumption | exact Lt]. }
    assert (S2 : 0 < sigma * sigma) by (apply Rmult_lt_0_compat; assumption).
    specialize (HO a Ia). destruct a as [a| | |]; try contradiction.
    - cbn [xmul xdiv]. rewrite Reqb_false by lra. eapply bounded_le; [apply (tree_interaction nodes (hits k t) a E); [exact HO | exact I]|].
      replace (a * INR d / (2 * (sigma * sigma))) with (INR d * (a / (2 * (sigma * sigma)))) by (field; lra).
      apply Rmult_le_compat_r; [|apply le_INR, N]. apply Rmult_le_pos; [cbn in HO; lra | left; apply Rinv_0_lt_compat; lra].
    - assert (D0 : 0 < INR d).
      { destruct Tight as [(n & t' & In1 & Lt & Nd)|[_ Z]].
        - destruct (HD PInf Ia eq_refl) as (z & Iz & Pz).
          pose proof (Hd (Z.to_nat z) 0%nat ltac:(rewrite Z2Nat.id by lia; exact Iz) ltac:(lia)) as X.
          assert (Y : (1 <= nodes_of_step (Z.to_nat z) 0)%nat) by (rewrite nodes_first; lia). apply (lt_INR 0). lia.
        - destruct (HD PInf Ia eq_refl) as (z & Iz & Pz). rewrite (Z z Iz) in Pz. lia. }
      cbn [xmul]. unfold inf_times. rewrite Rltb_true by assumption. cbn [xdiv]. rewrite Rltb_false by lra. split; exact Logic.I.
  Qed.
End Tree.

Section End_to_end.
  Context (Phi : R -> R) (HPhi : normal_cdf Phi) (frac : R -> xr -> xr -> xr) (fuel : nat) (rel : relation) (orders : list xr).
  Context (HO : forall a, In a orders -> order_ok a).
  Notation mc := (rdp_mc frac fuel rel orders).
  Notation unit := (unit_charge frac fuel rel orders).

  Lemma unit_mc a : composes frac fuel rel orders a -> snd (mc true (map (fun _ => Fin 0) orders) a 1) <> Unsup ->
    mc true (map (fun _ => Fin 0) orders) a 1 = (unit a, Fine).
  Proof.
    unfold composes, unit_charge. cbn [acc_compose]. rewrite (rdp_dry_pure frac fuel rel orders). destruct (rdp_dry frac fuel rel orders a); try discriminate.
    cbn [acc_ledger rdp_new acc_state]. destruct (builder_compose new_builder a 1) as [b [|]]; try discriminate.
    destruct (mc true (map (fun _ => Fin 0) orders) a 1) as [s [| |x]]; cbn [fst snd acc_state]; try discriminate; [reflexivity | congruence].
  Qed.
  Lemma unit_charged a v : composes frac fuel rel orders a -> (forall s, mc true s a 1 = charge s 1 v) ->
    (forall u, v = Ok u -> length u = length orders) -> v = Ok (unit a).
  Proof.
    intros C H L. assert (X := unit_mc a C). rewrite H in X. unfold charge in X. destruct v as [u|x]; [|cbn in X; specialize (X ltac:(discriminate)); discriminate].
    specialize (X ltac:(discriminate)). injection X as X. f_equal. rewrite <- X, vec_scale_1. specialize (L u eq_refl).
    replace (map (fun _ : xr => Fin 0) orders) with (repeat (Fin 0) (length orders)); [symmetry; apply vec_add_0, L|]. clear. induction orders; cbn; congruence.
  Qed.
  (** A vector computed order by order. *)
  Lemma curve_of v (f : xr -> xr -> Prop) E : valid E -> Forall2 f orders v -> (forall a r, In a orders -> f a r -> rdp_bounded E a r) -> rdp_curve orders v E.
  Proof.
    intros V F H. split; [exact V|]. split; [clear -F; induction F; cbn; congruence|]. clear HO. induction F as [|a r o v Hf F IH]; [intros ? ? []|].
    intros a' r' [[= <- <-]|I]; [apply H; [left; reflexivity | exact Hf]|]. apply IH; [|exact I]. intros b s Ib. apply H. right. exact Ib.
  Qed.
  Lemma poisson_vec q s v : rdp_poisson_gaussian frac (Fin q) (SNum s) orders = Ok v -> 0 <= q <= 1 /\ xltb s (Fin 0) = false /\
    Forall2 (fun a r => r = poisson_order frac q s a) orders v.
  Proof.
    unfold rdp_poisson_gaussian. destruct (Rleb_spec 0 q); [|discriminate]. destruct (Rleb_spec q 1); [|discriminate]. cbn [andb negb].
    destruct (xltb s (Fin 0)); [discriminate|]. intros [= <-]. split; [lra|]. split; [reflexivity|]. clear. induction orders; cbn; constructor; auto.
  Qed.
  Lemma inf_curve v E : valid E -> length v = length orders -> (forall r, In r v -> r = PInf) -> rdp_curve orders v E.
  Proof.
    intros V L H. split; [exact V|]. split; [symmetry; exact L|]. intros a r I. apply in_combine_r in I. rewrite (H r I). split; exact Logic.I.
  Qed.

  Lemma elementary_curve a E : composes frac fuel rel orders a -> (forall o, In o orders -> defined_at o a) ->
    (rel <> REPLACE_ONE -> forall o, In o orders -> frac_sound_for Phi frac o a) -> elementary_event Phi rel a E -> rdp_curve orders (unit a) E.
  Proof.
    intros C HD HF H. destruct a as [ | | | p k | x | x | e c | es | p e | n1 n2 e | n1 n2 e | x st | e m sh | x l1 l2 ]; try contradiction; cbn [elementary_event] in H.
    - (* NonPrivate *) assert (X := unit_mc NonPrivate C ltac:(discriminate)). cbn [rdp_mc] in X. apply (f_equal fst) in X. cbn [fst] in X. rewrite <- X. apply inf_curve; [exact H | rewrite !map_length; reflexivity|].
      intros r. rewrite map_map, in_map_iff. intros (y & <- & _). reflexivity.
    - (* RandResp *) destruct H as (y & Hy & Hp). destruct (relation_eqb rel ADD_OR_REMOVE_ONE) eqn:Er; [destruct rel; try discriminate; contradiction|].
      assert (X : rdp_randomized_response (nval p) k orders rel = Ok (unit (RandResp p k))).
      { apply unit_charged; [exact C | intros s; cbn [rdp_mc]; rewrite Er; reflexivity|]. intros u. unfold rdp_randomized_response. destruct (nval p); try discriminate.
        destruct (_ || _); [discriminate|]. destruct (k <? 1)%Z; [discriminate|]. apply map_res_length. }
      rewrite Hy in X. unfold rdp_randomized_response in X. destruct (Rltb_spec y 0) as [|Y0]; [discriminate|]. destruct (Rltb_spec 1 y) as [|Y1]; [discriminate|].
      cbn [orb] in X. destruct (k <? 1)%Z eqn:K1; [discriminate|]. apply map_res_ok in X.
      eapply curve_of; [apply (rr_pair_valid rel y k); [lra | exact Hp] | exact X|]. cbn beta. intros o r Io Ho.
      assert (RO : rdp_order o).
      { specialize (HO o Io). destruct o as [o| | |]; try contradiction; [|right; reflexivity]. cbn in HO. left. exists o. split; [reflexivity|].
        destruct (relation_eqb rel REPLACE_ONE); [unfold rr_rdp_one in Ho | unfold rr_rdp_special in Ho]; cbn [xleb] in Ho; destruct (Rleb_spec o 1); try discriminate; lra. }
      destruct (rr_rdp_exact y k o rel [r] E RO) as (r' & [= <-] & [B _]); [|exact Hp | exact B].
      unfold rdp_randomized_response. rewrite Rltb_false, Rltb_false by lra. cbn [orb]. rewrite K1. cbn [map_res]. rewrite Ho. reflexivity.
    - (* Gaussian *) assert (X : rdp_poisson_gaussian frac (Fin 1) (SNum (nval x)) orders = Ok (unit (Gaussian x))).
      { apply unit_charged; [exact C | reflexivity | intros u; apply poisson_length]. }
      destruct H as [(sigma & Hx & N)|[Hx N]]; rewrite Hx in X; destruct (poisson_vec _ _ _ X) as (_ & _ & F).
      + destruct N as [[? _]|[_ [[-> V]|[Hs Q]]]]; [lra | |].
        * eapply curve_of; [exact V | exact F|]. cbn beta. intros o r _ ->. unfold poisson_order. rewrite Reqb_false by lra. cbn [xeqb]. rewrite Reqb_true by reflexivity.
          rewrite Bool.orb_true_r. split; exact Logic.I.
        * assert (V : valid E) by (apply (gauss_bounded Phi HPhi sigma Hs E 1 Q); lra). eapply curve_of; [exact V | exact F|]. cbn beta. intros o r Io ->.
          specialize (HO o Io). unfold poisson_order. rewrite Reqb_false by lra. destruct o as [o| | |]; try contradiction; [|split; exact Logic.I].
          cbn [isinf orb xeqb]. rewrite (Reqb_false sigma 0), Reqb_true by lra. unfold two_var. cbn [xmul xdiv]. rewrite Reqb_false by nra.
          exact (proj2 (gauss_bounded Phi HPhi sigma Hs E o Q HO)).
      + eapply curve_of; [apply N | exact F|]. cbn beta. intros o r Io ->. specialize (HO o Io). unfold poisson_order. rewrite Reqb_false by lra.
        destruct o as [o| | |]; try contradiction; [|split; exact Logic.I]. cbn [isinf orb xeqb]. rewrite Reqb_true by reflexivity.
        cbn [two_var xmul]. unfold two_var. cbn [xmul]. unfold inf_times. rewrite Rltb_true by lra. cbn [xdiv]. apply no_leak_bounded; assumption.
    - (* Laplace *) destruct H as [(b & Hx & Hb & Q)|[Hx N]].
      + assert (X : map_res (laplace_rdp (1 / b)) orders = Ok (unit (Laplace x))).
        { apply unit_charged; [exact C | intros s; cbn [rdp_mc]; rewrite Hx, Reqb_false by lra; reflexivity | intros u; apply map_res_length]. }
        apply map_res_ok in X. eapply curve_of; [apply (laplace_form b Hb E Q) | exact X|]. cbn beta. intros o r _ Ho. exact (proj2 (laplace_bounded b Hb E o r Q Ho)).
      + assert (X : map_res (laplace_rdp 0) orders = Ok (unit (Laplace x))).
        { apply unit_charged; [exact C | intros s; cbn [rdp_mc]; rewrite Hx; reflexivity | intros u; apply map_res_length]. }
        apply map_res_ok in X. eapply curve_of; [apply N | exact X|]. cbn beta. intros o r Io Ho. specialize (HO o Io).
        enough (Er : r = Fin 0) by (rewrite Er; apply no_leak_bounded; assumption).
        unfold laplace_rdp in Ho. rewrite Rltb_false in Ho by lra. destruct o as [o| | |]; try discriminate. destruct (Rltb o 1); [discriminate|].
        assert (E0 : forall z, exp (0 * z) = 1) by (intros z; rewrite Rmult_0_l; apply exp_0).
        destruct (Reqb o 1); [injection Ho as <-; f_equal; replace (- 0) with 0 by ring; rewrite exp_0; ring|].
        destruct (Rltb o (11 / 10)); injection Ho as <-; f_equal; rewrite E0.
        * unfold Rdiv at 1. ring.
        * replace ((o - 1) * (1 - 1) / (2 * o - 1)) with 0 by (unfold Rdiv; ring). rewrite Rplus_0_r, ln_1. unfold Rdiv. ring.
    - (* PoissonSampled *) destruct H as (q & E0 & Hq & S & ->). destruct (sampled_of Phi HPhi e E0 S) as (m & s & Ef & Hm & N).
      destruct (relation_eqb rel REPLACE_ONE) eqn:Er.
      { exfalso. revert C. unfold composes. cbn [acc_compose rdp_mc]. rewrite Er. discriminate. }
      assert (X : rdp_poisson_gaussian frac (nval p) (SNum (nval m)) orders = Ok (unit (PoissonSampled p e))).
      { apply unit_charged; [exact C | intros s0; cbn [rdp_mc]; rewrite Er, Ef; reflexivity | intros u; apply poisson_length]. }
      rewrite Hq, Hm in X. destruct (poisson_vec _ _ _ X) as (Q01 & _ & F).
      eapply curve_of; [apply ProofPoisson.mix_valid; [exact Q01 | apply N] | exact F|]. cbn beta. intros o r Io ->.
      apply (poisson_bounded Phi HPhi); try assumption; [apply HO, Io | exact (HD o Io)|]. intros y -> Fr Q1. refine (HF _ _ Io q Hq Q1 Fr). destruct rel; discriminate.
    - (* SampledWithoutReplacement *) destruct H as (n & m & -> & -> & S). destruct (wor_bounded Phi HPhi e n m E S) as (Hn & V & B).
      destruct (negb (relation_eqb rel REPLACE_ONE)) eqn:Er.
      { exfalso. revert C. unfold composes. cbn [acc_compose rdp_mc]. rewrite Er. discriminate. }
      assert (Z0 : (Z.of_nat n =? 0)%Z = false) by (apply Z.eqb_neq; lia).
      assert (X : exists sv, (forall y, effective_noise e = Ok (EffNum y) -> sv = SNum (nval y)) /\
                    rdp_wor_gaussian (INR m / INR n) sv orders = Ok (unit (SampledWithoutReplacement (Z.of_nat n) (Z.of_nat m) e))).
      { rewrite (INR_IZR_INZ m), (INR_IZR_INZ n). destruct (effective_noise e) as [[y|b|]|y] eqn:Ef.
        - exists (SNum (nval y)). split; [intros z [= <-]; reflexivity|].
          apply unit_charged; [exact C | intros s0; cbn [rdp_mc]; rewrite Er, Ef, Z0; reflexivity | intros u; apply map_res_length].
        - exfalso. revert C. unfold composes. cbn [acc_compose rdp_mc]. rewrite Er, Ef. discriminate.
        - exists SComplex. split; [discriminate|].
          apply unit_charged; [exact C | intros s0; cbn [rdp_mc]; rewrite Er, Ef, Z0; reflexivity | intros u; apply map_res_length].
        - exfalso. revert C. unfold composes. cbn [acc_compose rdp_mc]. rewrite Er, Ef. discriminate. }
      destruct X as (sv & Hsv & X). unfold rdp_wor_gaussian in X. apply map_res_ok in X. eapply curve_of; [exact V | exact X|]. cbn beta. intros o r Io Ho.
      apply (B sv); [exact Hsv | apply HO, Io | exact (HD o Io) | exact Ho].
    - (* TreeAggregation *) destruct H as (sigma & Hx & N). destruct (negb (relation_eqb rel REPLACE_SPECIAL)) eqn:Er.
      { exfalso. revert C. unfold composes. cbn [acc_compose rdp_mc]. rewrite Er. discriminate. }
      assert (X : rdp_tree (nval x) st orders = Ok (unit (TreeAggregation x st))).
      { apply unit_charged; [exact C | intros s0; cbn [rdp_mc]; rewrite Er; reflexivity | intros u; apply tree_length]. }
      rewrite Hx in X. destruct N as [[-> V]|[Hs T]].
      + unfold rdp_tree in X. cbn [xltb xeqb] in X. rewrite Rltb_false, Reqb_true in X by lra. injection X as X. rewrite <- X.
        apply inf_curve; [exact V | apply map_length|]. intros r. rewrite in_map_iff. intros (y & <- & _). reflexivity.
      + eapply tree_bounded; eassumption.
  Qed.

  Lemma atoms_parts : forall (e a b : event num), In a (atoms e) -> In b (parts a) -> In b (parts e).
  Proof.
    induction e as [ | | | p k | sg | sg | e c IH | es IH | q e IH | n1 n2 e IH | n1 n2 e IH | sg l | e m sh IH | sg l1 l2 ] using event_ind'; intros a b I J;
      try (destruct I as [<-|[]]; exact J); try contradiction.
    - cbn [atoms] in I. cbn [parts]. apply (IH a b); [exact (copies_In _ _ _ I) | exact J].
    - cbn [atoms] in I. cbn [parts]. apply in_flat_map in I. destruct I as (x & Ix & I). apply in_flat_map. exists x. split; [exact Ix|].
      rewrite Forall_forall in IH. exact (IH x Ix a b I J).
  Qed.
  Lemma atoms_counts : forall (e a : event num), pos_counts e -> In a (atoms e) -> pos_counts a.
  Proof.
    induction e as [ | | | p k | sg | sg | e c IH | es IH | q e IH | n1 n2 e IH | n1 n2 e IH | sg l | e m sh IH | sg l1 l2 ] using event_ind'; intros a P I;
      try (destruct I as [<-|[]]; exact P); try contradiction.
    - apply (IH a); [apply P | exact (copies_In _ _ _ I)].
    - cbn [atoms] in I. induction IH as [|x l H _ IH2]; [contradiction|]. destruct P as [P1 P2]. cbn [flat_map] in I. apply in_app_or in I. destruct I as [I|I]; [exact (H a P1 I) | exact (IH2 P2 I)].
  Qed.
  Lemma level_curve n : forall a E, atom a -> composes frac fuel rel orders a -> pos_counts a ->
    (forall b o, In b (parts a) -> In o orders -> defined_at o b /\ (rel <> REPLACE_ONE -> frac_sound_for Phi frac o b)) ->
    rdp_level n Phi rel a E -> rdp_curve orders (unit a) E.
  Proof.
    induction n as [|n IH]; intros a E At C P D H.
    - assert (H' : elementary_event Phi rel a E) by (destruct a; exact H). apply elementary_curve; try assumption.
      + intros o Io. apply D; [destruct a; try (left; reflexivity); contradiction | exact Io].
      + intros Nr o Io. apply D; [destruct a; try (left; reflexivity); contradiction | exact Io | exact Nr].
    - destruct a as [ | | | p k | x | x | e c | es | p e | n1 n2 e | n1 n2 e | x st | e m sh | x l1 l2 ]; try contradiction;
        try (apply elementary_curve; try assumption; [intros o Io; (apply D; [left; reflexivity | exact Io]) | intros Nr o Io; (apply D; [left; reflexivity | exact Io | exact Nr])]).
      destruct H as (E0 & mu & pk & Hm & I & L & S). cbn [pos_counts] in P.
      assert (LZ : length (map (fun _ : xr => Fin 0) orders) = length orders) by apply map_length.
      destruct (event_adds frac fuel rel orders e 1 _ P ltac:(lia) LZ) as [EA1 EA2].
      assert (U : exists s1, mc true (map (fun _ => Fin 0) orders) e 1 = (s1, Fine) /\ rdp_repeat_and_select fuel orders s1 (nval m) (nval sh) = Ok (unit (RepeatAndSelect e m sh))).
      { destruct (atom_composes frac fuel rel orders _ At C) as [LU Hu]. specialize (Hu (map (fun _ => Fin 0) orders) 1%Z LZ ltac:(lia)). cbn [rdp_mc] in Hu.
        destruct (mc true (map (fun _ : xr => Fin 0) orders) e 1) as [s1 [| |y]]; try (apply (f_equal snd) in Hu; discriminate). exists s1. split; [reflexivity|].
        destruct (rdp_repeat_and_select fuel orders s1 (nval m) (nval sh)) as [v|y] eqn:Er; [|apply (f_equal snd) in Hu; discriminate]. f_equal.
        apply (f_equal fst) in Hu. cbn [fst] in Hu. rewrite !vec_scale_1, zeros_map in Hu. rewrite vec_add_0_r in Hu by (eapply rs_length; exact Er). rewrite Hu. apply vec_add_0, LU. }
      destruct U as (s1 & U1 & U2). rewrite U1 in EA2. specialize (EA2 eq_refl). specialize (EA1 EA2). rewrite U1 in EA1. apply (f_equal fst) in EA1. cbn [fst] in EA1.
      assert (CU : rdp_curve orders s1 E0).
      { rewrite EA1, zeros_map. unfold total. change (Z.to_nat 1) with 1%nat. replace (copies 1 (atoms e)) with (atoms e) by (unfold copies; rewrite ?app_nil_r; reflexivity).
        assert (FL : Forall (fun v => length v = length orders) (map unit (atoms e))) by (apply units_length; [apply atoms_Forall | exact EA2]).
        rewrite vec_add_0 by (apply vec_sum_length, FL). apply (interaction_curve orders HO (map unit (atoms e)) E0 FL). rewrite map_map.
        eapply interaction_le; [exact I|].
        assert (ALL : forall b, In b (atoms e) -> atom b /\ composes frac fuel rel orders b /\ pos_counts b /\ forall c, In c (parts b) -> In c (parts e)).
        { intros b Ib. split; [exact (atoms_atom _ _ Ib)|]. split; [rewrite Forall_forall in EA2; exact (EA2 b Ib)|]. split; [exact (atoms_counts e b P Ib)|]. intros c. apply atoms_parts, Ib. }
        clear I EA1 EA2 FL. induction (atoms e) as [|b l IHl]; cbn [map]; constructor.
        - intros F HF. destruct (ALL b (or_introl eq_refl)) as (A1 & A2 & A3 & A4). apply IH; try assumption. intros c o Ic Io. apply D; [right; apply A4, Ic | exact Io].
        - apply IHl. intros c Ic. apply ALL. right. exact Ic. }
      rewrite Hm in U2. eapply select_sound; try eassumption. intros Ns I1. destruct (D (RepeatAndSelect e m sh) (Fin 1) (or_introl eq_refl) I1) as [D1 _]. exact (D1 Ns eq_refl).
  Qed.

  Theorem rdp_end_to_end_gen h A E : runs mc (rdp_new orders) h A -> pos_history h ->
    (forall a o, In a (flat_map parts (map fst h)) -> In o orders -> defined_at o a /\ (rel <> REPLACE_ONE -> frac_sound_for Phi frac o a)) ->
    interaction (map (rdp_event Phi rel) (history_atoms h)) E ->
    rdp_curve orders (acc_state A) E /\
    (orders <> [] -> real_orders orders -> forall delta e, rdp_epsilon orders A delta = Ok (Fin e) -> dp_both E e delta) /\
    (forall eps d, rdp_delta orders A (Fin eps) = Ok d -> exists x, d = Fin x /\ 0 <= x <= 1 /\ dp_both E eps x).
  Proof.
    intros R P D I. apply (adaptive frac fuel rel orders h A E HO R P). eapply interaction_le; [exact I|].
    destruct (rdp_additive frac fuel rel orders h A R P) as [C _].
    assert (ALL : forall b, In b (history_atoms h) -> atom b /\ composes frac fuel rel orders b /\ pos_counts b /\ forall c, In c (parts b) -> In c (flat_map parts (map fst h))).
    { intros b Ib. assert (Cb := C b Ib). unfold history_atoms in Ib. apply in_flat_map in Ib. destruct Ib as ((e & n) & Ie & Ib). apply copies_In in Ib.
      unfold pos_history in P. rewrite Forall_forall in P. destruct (P _ Ie) as [_ Pe]. cbn [fst] in Pe.
      split; [exact (atoms_atom _ _ Ib)|]. split; [exact Cb|]. split; [exact (atoms_counts e b Pe Ib)|]. intros c Ic. apply in_flat_map. exists e.
      split; [apply in_map_iff; exists (e, n); auto | exact (atoms_parts e b c Ib Ic)]. }
    clear I C. induction (history_atoms h) as [|a l IH]; cbn [map]; constructor.
    - intros F [n HF]. destruct (ALL a (or_introl eq_refl)) as (A1 & A2 & A3 & A4). apply (level_curve n); try assumption. intros c o Ic Io. apply D; [apply A4, Ic | exact Io].
    - apply IH. intros b Ib. apply ALL. right. exact Ib.
  Qed.
  Theorem rdp_end_to_end h A E : runs mc (rdp_new orders) h A -> pos_history h ->
    (forall a o, In a (flat_map parts (map fst h)) -> In o orders -> defined_at o a /\ frac_sound_for Phi frac o a) ->
    interaction (map (rdp_event Phi rel) (history_atoms h)) E ->
    rdp_curve orders (acc_state A) E /\
    (orders <> [] -> real_orders orders -> forall delta e, rdp_epsilon orders A delta = Ok (Fin e) -> dp_both E e delta) /\
    (forall eps d, rdp_delta orders A (Fin eps) = Ok d -> exists x, d = Fin x /\ 0 <= x <= 1 /\ dp_both E eps x).
  Proof.
    intros R P D I. apply (rdp_end_to_end_gen h A E R P); [|exact I]. intros a o Ia Io. destruct (D a o Ia Io) as [D1 D2]. split; [exact D1 | intros _; exact D2].
  Qed.
End End_to_end.

(** No event with the numerical series is accepted under this relation. *)
Theorem rdp_replace_one Phi : normal_cdf Phi -> forall frac fuel orders, (forall o, In o orders -> order_ok o) -> forall h A E,
  runs (rdp_mc frac fuel REPLACE_ONE orders) (rdp_new orders) h A -> pos_history h ->
  (forall a o, In a (flat_map parts (map fst h)) -> In o orders -> defined_at o a) ->
  interaction (map (rdp_event Phi REPLACE_ONE) (history_atoms h)) E ->
  rdp_curve orders (acc_state A) E /\
  (orders <> [] -> real_orders orders -> forall delta e, rdp_epsilon orders A delta = Ok (Fin e) -> dp_both E e delta) /\
  (forall eps d, rdp_delta orders A (Fin eps) = Ok d -> exists x, d = Fin x /\ 0 <= x <= 1 /\ dp_both E eps x).
Proof.
  intros HPhi frac fuel orders HO h A E R P D I. apply (rdp_end_to_end_gen Phi HPhi frac fuel REPLACE_ONE orders HO h A E R P); [|exact I].
  intros a o Ia Io. split; [apply D; assumption | congruence].
Qed.

(** At order 1 the formulas for samples are 0/0, and no number is charged. *)
Lemma sampled_order_one frac q : 0 < q < 1 ->
  (forall sigma r, poisson_order frac q sigma (Fin 1) <> Fin r) /\ (forall sigma x, wor_order q sigma (Fin 1) = Ok x -> x = NaN).
Proof.
  intros Hq. split.
  - intros sigma r. unfold poisson_order. rewrite !Reqb_false by lra. cbn [isinf orb]. destruct (xeqb sigma (Fin 0)); [discriminate|]. cbn [xsub xadd xneg].
    destruct (log_a frac q sigma (Fin 1)) as [x| | |]; cbn [xdiv]; [|destruct (Rltb _ _); discriminate..|discriminate].
    rewrite Reqb_true by lra. destruct (Rltb 0 x), (Rltb x 0); discriminate.
  - intros sigma x. unfold wor_order. destruct (negb _); [discriminate|]. rewrite !Reqb_false by lra. rewrite Reqb_true by lra. intros [= <-]. reflexivity.
Qed.
Lemma sampled_order_one_example : wor_order (1/2) (SNum (Fin 1)) (Fin 1) = Ok NaN.
Proof.
  unfold wor_order. cbn [xleb xltb xeqb]. rewrite !Rleb_true by lra. rewrite (Reqb_false (1/2)) by lra. rewrite (Reqb_false (1/2)) by lra. rewrite (Reqb_true 1 1) by reflexivity.
  destruct (Rltb 1 1); reflexivity.
Qed.
