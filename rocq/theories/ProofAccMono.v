(** The RDP accountant: growth of the state, infinite charges, adaptive composition. *)
From Coq Require Import Permutation.
From Verif Require Import Base XReal Exn SpecRdp SpecDP SpecRenyi ProofDP ProofRenyi TypesEvent TypesRelation SpecEvent ModelBuilder ProofBuilder ModelMake
  ModelRdp ProofConv ProofMono ModelAccountant SpecAccountant ProofAccGen ProofAccRdp ProofAccAdd ProofCharge.
Local Arguments Rltb : simpl never.
Local Arguments Rleb : simpl never.
Local Arguments Reqb : simpl never.

Lemma vec_le_refl s : vec_pos s -> vec_le s s.
Proof. induction 1 as [|x s H _ IH]; constructor; [|exact IH]. apply xleb_refl. destruct x; discriminate. Qed.
Lemma vec_le_trans s1 s2 s3 : vec_le s1 s2 -> vec_le s2 s3 -> vec_le s1 s3.
Proof.
  intros H. revert s3. induction H as [|x y s1 s2 Hx _ IH]; intros s3 H3; inversion_clear H3 as [|? z ? s3' Hz H3']; constructor.
  - eapply xleb_trans; eassumption.
  - apply IH, H3'.
Qed.
Lemma vec_le_length s s' : vec_le s s' -> length s = length s'.
Proof. induction 1; cbn; congruence. Qed.
Lemma xadd_le x y : xpos x -> xpos y -> xleb x (xadd x y) = true.
Proof.
  intros Hx Hy. destruct (xpos_cases x Hx) as [->|(a & -> & Ha)], (xpos_cases y Hy) as [->|(b & -> & Hb)]; try reflexivity.
  cbn [xadd]. apply xleb_Fin. lra.
Qed.
Lemma vec_add_le : forall s v, vec_pos s -> vec_pos v -> length s = length v -> vec_le s (vec_add s v).
Proof.
  induction s as [|x s IH]; intros [|y v] Hs Hv L; try discriminate; [constructor|].
  inversion_clear Hs. inversion_clear Hv. unfold vec_add. cbn. constructor; [apply xadd_le; assumption|]. apply IH; [assumption..|]. cbn in L. lia.
Qed.
Lemma vec_scale_pos n v : (1 <= n)%Z -> vec_pos v -> vec_pos (vec_scale n v).
Proof.
  intros H. apply IZR_le in H. unfold vec_pos, vec_scale. rewrite Forall_map. apply Forall_impl. intros x. apply xpos_mul. lra.
Qed.
Lemma vec_add_pos s v : vec_pos s -> vec_pos v -> vec_pos (vec_add s v).
Proof.
  intros Hs. revert v. induction Hs as [|x s Hx _ IH]; intros v Hv; [constructor|]. destruct Hv as [|y v Hy Hv]; [constructor|].
  unfold vec_add. cbn. constructor; [apply xpos_add; assumption | apply IH, Hv].
Qed.
Lemma zeros_pos k : vec_pos (repeat (Fin 0) k).
Proof. apply Forall_forall. intros x I. apply repeat_spec in I. subst. apply xpos_Fin. lra. Qed.

Lemma no_repeat_finite e : no_repeat e -> finite_means e.
Proof.
  induction e as [ | | | p b | sg | sg | e c IH | es IH | q e IH | a b e IH | a b e IH | sg l | e m sh IH | sg a b ] using event_ind';
    intros H; try exact I; try contradiction.
  - exact (IH H).
  - cbn in *. induction IH as [|x l Hx _ IH2]; [exact I|]. destruct H as [H1 H2]. split; [apply Hx, H1 | apply IH2, H2].
Qed.

Section Rdp.
  Context (frac : R -> xr -> xr -> xr) (fuel : nat) (rel : relation) (orders : list xr).
  Hypothesis HF : moments_at_least_one frac.
  Hypothesis HO : orders_above_one orders.
  Notation mc := (rdp_mc frac fuel rel orders).
  Notation k := (length orders).
  Notation dry := (rdp_dry frac fuel rel orders).
  Notation pure := (rdp_dry_pure frac fuel rel orders).

  Lemma charge_grow s n v : vec_pos s -> length s = k -> (1 <= n)%Z -> (forall u, v = Ok u -> length u = k /\ vec_pos u) ->
    vec_le s (fst (charge s n v)).
  Proof.
    intros Ps L N H. destruct v as [u|x]; cbn [charge fst]; [|apply vec_le_refl, Ps]. destruct (H u eq_refl) as [Lu Pu].
    apply vec_add_le; [assumption | apply vec_scale_pos; assumption | rewrite vec_scale_length; congruence].
  Qed.
  Lemma eff_sigma ef e : effective_noise e = Ok ef -> (forall b, ef <> EffBad b) ->
    let sg := match ef with EffNum m => SNum (nval m) | _ => SComplex end in
    sg = SComplex \/ exists n, sg = SNum (nval n).
  Proof. intros _ N. destruct ef as [n|b|]; cbn; [right; exists n; reflexivity | destruct (N b eq_refl) | left; reflexivity]. Qed.

  (** Composing an event never lowers the state, if it succeeds or contains no
      RepeatAndSelect. *)
  Lemma grow : forall e n s, vec_pos s -> length s = k -> (1 <= n)%Z -> pos_counts e -> finite_means e ->
    (snd (mc true s e n) = Fine \/ no_repeat e) -> vec_le s (fst (mc true s e n)).
  Proof.
    induction e as [ | | | p b | sg | sg | e c IH | es IH | q e IH | a b e IH | a b e IH | sg l | e m sh IH | sg a b ] using event_ind';
      intros n s Ps L N Pc Fm; try (intros _; apply vec_le_refl, Ps); cbn [rdp_mc].
    - intros _. cbn [fst]. clear L. induction Ps as [|x s Hx _ IH]; constructor; [|exact IH]. apply xadd_le; [exact Hx | reflexivity].
    - intros _. destruct (relation_eqb rel ADD_OR_REMOVE_ONE) eqn:E; [apply vec_le_refl, Ps|]. apply charge_grow; try assumption.
      intros u Hu. split; [eapply rr_length; exact Hu|]. eapply rr_pos; [|exact HO | exact Hu]. intros ->. discriminate.
    - intros _. apply charge_grow; try assumption. intros u Hu. split; [eapply poisson_length; exact Hu|].
      eapply (poisson_pos frac HF); [|exact HO | exact Hu]. right. eexists. reflexivity.
    - intros _.
      assert (X : forall eps, vec_le s (fst (charge s n (map_res (laplace_rdp eps) orders)))).
      { intros eps. apply charge_grow; try assumption. intros u Hu. split; [eapply map_res_length; exact Hu | eapply laplace_pos; eassumption]. }
      destruct (nval sg) as [x| | |]; try apply X. destruct (Reqb x 0); [apply vec_le_refl, Ps | apply X].
    - destruct Pc as [P1 P2]. cbn in Fm. intros H. apply IH; try assumption. nia.
    - change (snd (mc true s (Composed es) n) = Fine \/ no_repeat (Composed es) -> vec_le s (fst (mc true s (Composed es) n))).
      rewrite !rdp_composed. cbn in Pc, Fm.
      revert s Ps L Pc Fm. induction IH as [|x l Hx _ IH2]; intros s Ps L Pc Fm H; [apply vec_le_refl, Ps|].
      destruct Pc as [Px Pl], Fm as [Fx Fl]. cbn [seq_mc] in *.
      specialize (Hx n s Ps L N Px Fx). destruct (mc true s x n) as [s1 r] eqn:E. cbn [fst snd] in *.
      assert (V : vec_le s s1).
      { apply Hx. destruct H as [H|H]; [left|right; apply H]. destruct r; try discriminate. reflexivity. }
      destruct r; try exact V. eapply vec_le_trans; [exact V|]. apply IH2; try assumption.
      + eapply vec_le_pos; eassumption.
      + rewrite <- L. symmetry. apply vec_le_length, V.
      + destruct H as [H|H]; [left; exact H | right; apply H].
    - intros _. destruct (relation_eqb _ _); [apply vec_le_refl, Ps|].
      destruct (effective_noise e) as [ef|x] eqn:F; [|apply vec_le_refl, Ps].
      assert (X : (forall b, ef <> EffBad b) -> vec_le s (fst (charge s n (rdp_poisson_gaussian frac (nval q)
                   (match ef with EffNum m => SNum (nval m) | _ => SComplex end) orders)))).
      { intros Nb. apply charge_grow; try assumption. intros u Hu. split; [eapply poisson_length; exact Hu|].
        eapply (poisson_pos frac HF); [|exact HO | exact Hu]. eapply eff_sigma; eassumption. }
      destruct ef; [apply X; discriminate | apply vec_le_refl, Ps | apply X; discriminate].
    - intros _. destruct (negb _); [apply vec_le_refl, Ps|].
      destruct (effective_noise e) as [ef|x] eqn:F; [|apply vec_le_refl, Ps].
      assert (X : (forall b, ef <> EffBad b) -> vec_le s (fst (charge s n (rdp_wor_gaussian (IZR b / IZR a)
                   (match ef with EffNum m => SNum (nval m) | _ => SComplex end) orders)))).
      { intros Nb. apply charge_grow; try assumption. intros u Hu. split; [eapply map_res_length; exact Hu|].
        eapply wor_pos; [|exact HO | exact Hu]. eapply eff_sigma; eassumption. }
      destruct ef; try apply vec_le_refl, Ps; (destruct (a =? 0)%Z; [apply vec_le_refl, Ps | apply X; discriminate]).
    - intros _. destruct (negb _); [apply vec_le_refl, Ps|]. apply charge_grow; try assumption. intros u Hu.
      split; [eapply tree_length; exact Hu | eapply tree_pos; eassumption].
    - destruct Fm as [Fm Nm]. intros [H|[]].
      specialize (IH 1%Z (map (fun _ => Fin 0) orders)). rewrite zeros_map in *.
      specialize (IH (zeros_pos k) (repeat_length _ _) ltac:(lia) Pc Fm).
      destruct (mc true (repeat (Fin 0) k) e 1) as [s1 [| |x]]; cbn [fst snd] in *; try discriminate.
      destruct (rdp_repeat_and_select fuel orders s1 (nval m) (nval sh)) as [v|x] eqn:E; [|discriminate]. cbn [fst].
      rewrite vec_add_comm. apply vec_add_le; [assumption | apply vec_scale_pos; [assumption|] | rewrite vec_scale_length, (rs_length _ _ _ _ _ _ E); assumption].
      eapply rs_pos; [exact HO | exact Nm | | exact E]. eapply vec_le_pos; [apply zeros_pos | apply IH; left; reflexivity].
  Qed.

  (** A state of the accountant: one non-negative value per order. *)
  Definition good_state (A : accountant (list xr)) : Prop := vec_pos (acc_state A) /\ length (acc_state A) = k.
  Lemma new_good : good_state (rdp_new orders).
  Proof. unfold good_state, rdp_new. cbn [acc_state]. rewrite zeros_map. split; [apply zeros_pos | apply repeat_length]. Qed.
  Lemma le_good A A' : good_state A -> vec_le (acc_state A) (acc_state A') -> good_state A'.
  Proof. intros [P L] H. split; [eapply vec_le_pos; eassumption | rewrite <- L; symmetry; apply vec_le_length, H]. Qed.

  (** What a call of compose with acceptable events does, whether it raises or not. *)
  Lemma builder_ok_count b e n b' : builder_compose b e n = (b', Ok tt) -> (1 <= n)%Z.
  Proof. destruct e; cbn [builder_compose]; destruct (Z.ltb_spec n 1); try discriminate; lia. Qed.
  Lemma compose_grow A e n A' r : good_state A -> pos_counts e -> finite_means e ->
    acc_compose mc A (EventObj e) n = (A', r) -> (r = Ok tt \/ no_repeat e) -> vec_le (acc_state A) (acc_state A').
  Proof.
    intros [Ps L] Pc Fm H C. cbn [acc_compose] in H. rewrite pure in H. destruct (dry e) eqn:Dr; [|injection H as <- _; apply vec_le_refl, Ps ..].
    destruct (builder_compose (acc_ledger A) e n) as [b [[]|x]] eqn:B; [|injection H as <- _; apply vec_le_refl, Ps].
    apply builder_ok_count in B. pose proof (grow e n (acc_state A) Ps L B Pc Fm) as G.
    pose proof (rdp_fine_unsup frac fuel rel orders (acc_state A) e n Dr) as U.
    destruct (mc true (acc_state A) e n) as [s2 r2]. cbn [fst snd] in *. injection H as <- <-. cbn [acc_state]. apply G.
    destruct C as [C|C]; [left | right; exact C]. destruct r2; congruence.
  Qed.
  Lemma runs_grow A h A' : runs mc A h A' -> good_state A -> pos_history h -> Forall (fun en => finite_means (fst en)) h ->
    vec_le (acc_state A) (acc_state A').
  Proof.
    intros R. induction R as [A|A e n A1 h A' C R IH]; intros G P F; [apply vec_le_refl, G|].
    inversion_clear P as [|? ? [_ Pe] P']. inversion_clear F as [|? ? Fe F']. cbn [fst snd] in *.
    assert (V : vec_le (acc_state A) (acc_state A1)) by (eapply compose_grow; [exact G | exact Pe | exact Fe | exact C | left; reflexivity]).
    eapply vec_le_trans; [exact V|]. apply IH; [eapply le_good; eassumption | assumption..].
  Qed.

  Lemma step_grow A c : good_state A -> plain_call c -> vec_le (acc_state A) (acc_state (acc_step mc A c)).
  Proof.
    intros G Pc. destruct c as [[e|] n|e|]; cbn [acc_step].
    - destruct Pc as [Pc Nr]. destruct (acc_compose mc A (EventObj e) n) as [A' r] eqn:C. cbn [fst].
      eapply compose_grow; [exact G | exact Pc | apply no_repeat_finite, Nr | exact C | right; exact Nr].
    - apply vec_le_refl, G.
    - rewrite (supports_pure mc dry pure). apply vec_le_refl, G.
    - unfold acc_get_ledger. destruct (builder_build (acc_ledger A)). apply vec_le_refl, G.
  Qed.
  Lemma run_grow cs : forall A, good_state A -> Forall plain_call cs -> vec_le (acc_state A) (acc_state (acc_run mc A cs)).
  Proof.
    induction cs as [|c cs IH]; intros A G F; [apply vec_le_refl, G|]. inversion_clear F as [|? ? Fc F'].
    pose proof (step_grow A c G Fc) as V. eapply vec_le_trans; [exact V|]. apply (IH (acc_step mc A c)); [eapply le_good; eassumption | exact F'].
  Qed.

  (** The reported values follow the state. *)
  Lemma above_real : real_orders orders.
  Proof. intros a I. destruct (HO a I) as (x & -> & _). exists x. reflexivity. Qed.
  Lemma reported_le A A' : good_state A -> vec_le (acc_state A) (acc_state A') ->
    (forall delta e e', rdp_epsilon orders A delta = Ok e -> rdp_epsilon orders A' delta = Ok e' -> xleb e e' = true) /\
    (forall eps d d', rdp_delta orders A (Fin eps) = Ok d -> rdp_delta orders A' (Fin eps) = Ok d' -> xleb d d' = true).
  Proof.
    intros [Ps L] V. unfold rdp_epsilon, rdp_delta. split.
    - intros delta e e' H H'. destruct (compute_epsilon orders (acc_state A) delta) as [[e1 o1]|] eqn:E1; [|discriminate].
      destruct (compute_epsilon orders (acc_state A') delta) as [[e2 o2]|] eqn:E2; [|discriminate]. cbn in H, H'. injection H as <-. injection H' as <-.
      eapply epsilon_mono; [apply above_real | exact Ps | exact V | exact E1 | exact E2].
    - intros eps d d' H H'. destruct (compute_delta orders (acc_state A) (Fin eps)) as [[e1 o1]|] eqn:E1; [|discriminate].
      destruct (compute_delta orders (acc_state A') (Fin eps)) as [[e2 o2]|] eqn:E2; [|discriminate]. cbn in H, H'. injection H as <-. injection H' as <-.
      eapply delta_mono; [apply above_good, HO | exact Ps | exact V | apply Rle_refl | exact E1 | exact E2].
  Qed.

  (** C38 for accountants. *)
  Lemma history_mono h1 h2 A1 A2 : runs mc (rdp_new orders) h1 A1 -> runs mc A1 h2 A2 ->
    pos_history (h1 ++ h2) -> Forall (fun en => finite_means (fst en)) (h1 ++ h2) ->
    vec_pos (acc_state A1) /\ vec_le (acc_state A1) (acc_state A2) /\
    (forall delta e e', rdp_epsilon orders A1 delta = Ok e -> rdp_epsilon orders A2 delta = Ok e' -> xleb e e' = true) /\
    (forall eps d d', rdp_delta orders A1 (Fin eps) = Ok d -> rdp_delta orders A2 (Fin eps) = Ok d' -> xleb d d' = true).
  Proof.
    intros R1 R2 P F. apply Forall_app in P. destruct P as [P1 P2]. apply Forall_app in F. destruct F as [F1 F2].
    assert (G1 : good_state A1) by (eapply le_good; [apply new_good | eapply runs_grow; [exact R1 | apply new_good | exact P1 | exact F1]]).
    pose proof (runs_grow _ _ _ R2 G1 P2 F2) as V. split; [apply G1|]. split; [exact V|]. apply reported_le; assumption.
  Qed.

  (** C07 *)
  Lemma compose_never_forgets cs e n A' r : Forall plain_call cs -> pos_counts e -> no_repeat e ->
    acc_compose mc (acc_run mc (rdp_new orders) cs) (EventObj e) n = (A', r) ->
    let A := acc_run mc (rdp_new orders) cs in
    vec_le (acc_state A) (acc_state A') /\
    (forall delta x x', rdp_epsilon orders A delta = Ok x -> rdp_epsilon orders A' delta = Ok x' -> xleb x x' = true) /\
    (forall eps d d', rdp_delta orders A (Fin eps) = Ok d -> rdp_delta orders A' (Fin eps) = Ok d' -> xleb d d' = true).
  Proof.
    intros F Pc Nr C A.
    assert (G : good_state A) by (eapply le_good; [apply new_good | apply run_grow; [apply new_good | exact F]]).
    assert (V : vec_le (acc_state A) (acc_state A')) by (eapply compose_grow; [exact G | exact Pc | apply no_repeat_finite, Nr | exact C | right; exact Nr]).
    split; [exact V|]. apply reported_le; assumption.
  Qed.

  (** C09: infinite charges. *)
  Definition all_inf (s : list xr) : Prop := Forall (fun x => x = PInf) s.
  Lemma le_inf s s' : all_inf s -> vec_le s s' -> all_inf s'.
  Proof.
    intros H V. induction V as [|x y s s' Hx _ IH]; [constructor|]. inversion_clear H as [|? ? -> H2]. constructor; [|apply IH, H2].
    destruct y; try discriminate. reflexivity.
  Qed.
  Lemma add_inf_r s v : vec_pos s -> length s = length v -> all_inf v -> all_inf (vec_add s v).
  Proof.
    intros Ps. revert v. induction Ps as [|x s Hx _ IH]; intros [|y v] L H; try discriminate; [constructor|].
    inversion_clear H as [|? ? -> H2]. cbn in L. unfold vec_add. cbn. constructor; [|apply IH; [lia | exact H2]].
    destruct (xpos_cases x Hx) as [->|(r & -> & _)]; reflexivity.
  Qed.
  Lemma unit_grow a : atom a -> composes frac fuel rel orders a -> pos_counts a -> finite_means a -> vec_pos (unit_charge frac fuel rel orders a).
  Proof.
    intros At C P F. unfold unit_charge, composes in *. destruct (acc_compose mc (rdp_new orders) (EventObj a) 1) as [A' r] eqn:E. cbn [snd fst] in *. subst r.
    eapply vec_le_pos; [apply new_good|]. eapply compose_grow; [apply new_good | exact P | exact F | exact E | left; reflexivity].
  Qed.
  Lemma not_private_atom a : not_private a -> atom a.
  Proof. intros [->|(s & -> & _)]; exact I. Qed.
  Lemma not_private_inf a : not_private a -> composes frac fuel rel orders a -> all_inf (unit_charge frac fuel rel orders a).
  Proof.
    intros Np C. destruct (atom_composes frac fuel rel orders a (not_private_atom a Np) C) as [L H].
    specialize (H (repeat (Fin 0) k) 1%Z (repeat_length _ _) ltac:(lia)). rewrite vec_scale_1, vec_add_0 in H by exact L.
    set (u := unit_charge frac fuel rel orders a) in *. clearbody u.
    destruct Np as [->|(s & -> & E)]; cbn [rdp_mc] in H.
    - injection H as <-. apply Forall_forall. intros x. rewrite in_map_iff. intros (y & <- & I). apply repeat_spec in I. subst y. reflexivity.
    - rewrite E in H. unfold rdp_poisson_gaussian in H. rewrite !Rleb_true in H by lra. cbn [andb negb xltb] in H. rewrite Rltb_false in H by lra.
      cbn [charge] in H. injection H as <-. rewrite vec_scale_1, vec_add_0 by apply map_length. apply Forall_forall. intros x.
      rewrite in_map_iff. intros (y & <- & I). unfold poisson_order. rewrite Reqb_false by lra. cbn [xeqb]. rewrite (Reqb_true 0 0) by reflexivity.
      rewrite orb_true_r. reflexivity.
  Qed.
  Lemma pos_atoms (e : event num) a : In a (atoms e) -> pos_counts e -> pos_counts a.
  Proof.
    induction e as [ | | | p b | sg | sg | e c IH | es IH | q e IH | u b e IH | u b e IH | sg l | e m sh IH | sg u b ] using event_ind';
      cbn [atoms]; intros J P; try (destruct J as [<-|[]]; exact P).
    - contradiction.
    - apply IH; [apply (copies_In _ _ _ J) | apply P].
    - cbn in P. induction IH as [|x l Hx _ IH2]; [contradiction|]. destruct P as [P1 P2]. cbn [flat_map] in J. rewrite in_app_iff in J.
      destruct J as [J|J]; [apply Hx; assumption | apply IH2; assumption].
  Qed.
  Lemma finite_atoms (e : event num) a : In a (atoms e) -> finite_means e -> finite_means a.
  Proof.
    induction e as [ | | | p b | sg | sg | e c IH | es IH | q e IH | u b e IH | u b e IH | sg l | e m sh IH | sg u b ] using event_ind';
      cbn [atoms]; intros J P; try (destruct J as [<-|[]]; exact P).
    - contradiction.
    - apply IH; [apply (copies_In _ _ _ J) | apply P].
    - cbn in P. induction IH as [|x l Hx _ IH2]; [contradiction|]. destruct P as [P1 P2]. cbn [flat_map] in J. rewrite in_app_iff in J.
      destruct J as [J|J]; [apply Hx; assumption | apply IH2; assumption].
  Qed.
  Lemma vec_sum_inf l : Forall (fun v => vec_pos v /\ length v = k) l -> (exists v, In v l /\ all_inf v) -> all_inf (vec_sum k l).
  Proof.
    intros F (v & I & H). apply in_split in I. destruct I as (l1 & l2 & ->). apply Forall_app in F. destruct F as [F1 F2].
    inversion_clear F2 as [|? ? [Pv Lv] F2'].
    rewrite (vec_sum_perm k (l1 ++ v :: l2) (v :: l1 ++ l2)) by (symmetry; apply Permutation_middle).
    cbn [vec_sum fold_right]. fold (vec_sum k (l1 ++ l2)). rewrite vec_add_comm.
    assert (F : Forall (fun v => vec_pos v /\ length v = k) (l1 ++ l2)) by (apply Forall_app; split; assumption).
    assert (G : vec_pos (vec_sum k (l1 ++ l2)) /\ length (vec_sum k (l1 ++ l2)) = k).
    { clear - F. induction F as [|w l [Pw Lw] _ [IH1 IH2]]; cbn [vec_sum fold_right]; [split; [apply zeros_pos | apply repeat_length]|].
      fold (vec_sum k l). split; [apply vec_add_pos; assumption | apply vec_add_length; assumption]. }
    apply add_inf_r; [apply G | destruct G; congruence | exact H].
  Qed.
  Lemma total_inf l : Forall atom l -> Forall (composes frac fuel rel orders) l -> Forall pos_counts l -> Forall finite_means l ->
    (exists a, In a l /\ not_private a) -> all_inf (total frac fuel rel orders l).
  Proof.
    intros At C P F (a & I & Np). unfold total. apply vec_sum_inf.
    - apply Forall_map. rewrite Forall_forall in *. intros b J. split; [apply unit_grow; auto|].
      apply (atom_composes frac fuel rel orders b (At b J) (C b J)).
    - exists (unit_charge frac fuel rel orders a). split; [apply in_map, I|]. apply not_private_inf; [exact Np|]. rewrite Forall_forall in C. apply C, I.
  Qed.
  (** Composing an event that contains a non-private release makes the state infinite. *)
  Lemma compose_inf A e n A' : good_state A -> pos_counts e -> finite_means e -> acc_compose mc A (EventObj e) n = (A', Ok tt) ->
    (exists a, In a (atoms e) /\ not_private a) -> all_inf (acc_state A').
  Proof.
    intros [Ps L] Pc Fm C (a & I & Np).
    apply (compose_Ok mc dry pure (rdp_fine_unsup frac fuel rel orders)) in C. destruct C as (_ & b & B & _ & M).
    apply builder_ok_count in B. destruct (event_adds frac fuel rel orders e n (acc_state A) Pc B L) as [H1 H2].
    assert (Ca : Forall (composes frac fuel rel orders) (atoms e)) by (apply H2; rewrite M; reflexivity).
    rewrite (H1 Ca) in M. injection M as <-.
    assert (At : Forall atom (copies (Z.to_nat n) (atoms e))) by (apply copies_Forall, atoms_Forall).
    assert (Cc : Forall (composes frac fuel rel orders) (copies (Z.to_nat n) (atoms e))) by (apply copies_Forall, Ca).
    apply add_inf_r; [exact Ps | rewrite L; symmetry; apply vec_sum_length, units_length; assumption|].
    apply total_inf; try assumption.
    - apply Forall_forall. intros x J. apply copies_In in J. eapply pos_atoms; eassumption.
    - apply Forall_forall. intros x J. apply copies_In in J. eapply finite_atoms; eassumption.
    - exists a. split; [apply copies_In_iff; [lia | exact I] | exact Np].
  Qed.
  Lemma inf_reported A : orders <> [] -> length (acc_state A) = k -> all_inf (acc_state A) ->
    (forall delta, 0 <= delta <= 1 -> rdp_epsilon orders A delta = Ok PInf) /\
    (forall eps, 0 <= eps -> rdp_delta orders A (Fin eps) = Ok (Fin 1)).
  Proof.
    intros Ne L H. set (s := acc_state A) in *.
    assert (V : forall a r, In (a, r) (combine orders s) -> r = PInf /\ exists x, a = Fin x /\ 1 < x).
    { intros a r I. split; [|apply HO; eapply in_combine_l; exact I]. unfold all_inf in H. rewrite Forall_forall in H. apply H. eapply in_combine_r; exact I. }
    assert (Fp : forall a r, In (a, r) (combine orders s) -> finpos r) by (intros a r J; destruct (V a r J) as [-> _]; exact I).
    assert (O1 : forall a, In a orders -> xltb a (Fin 1) = false) by (intros a I; destruct (HO a I) as (x & -> & Hx); cbn; apply Rltb_false; lra).
    split.
    - intros delta D. unfold rdp_epsilon. fold s. destruct (Req_dec delta 0) as [->|D0].
      + unfold compute_epsilon. rewrite Rltb_false by lra. rewrite Reqb_true by reflexivity.
        destruct s as [|x s0] eqn:Es; [destruct orders; [congruence | discriminate]|]. inversion_clear H as [|? ? -> H2]. cbn. reflexivity.
      + destruct (epsilon_total orders s delta ltac:(lra) Ne (eq_sym L) O1) as (e & o & E). rewrite E. cbn [bind fst].
        assert (D1 : 0 < delta) by lra.
        apply epsilon_spec in E; [|exact D1|].
        * destruct E as (_ & _ & r & I & -> & _). destruct (V _ _ I) as (-> & x & -> & Hx). rewrite eps_of_order_PInf by lra. reflexivity.
        * intros a r I. destruct (V _ _ I) as (-> & x & -> & Hx). apply eps_of_order_num; [assumption | lra | exact Logic.I].
    - intros eps E0. unfold rdp_delta. fold s. destruct (delta_total orders s eps E0 Ne (eq_sym L) O1) as (d & o & E). rewrite E. cbn [bind fst].
      apply delta_spec in E.
      + destruct E as (_ & _ & _ & r & I & -> & _). destruct (V _ _ I) as (-> & x & -> & Hx). rewrite logdelta_PInf by lra.
        cbn [xexp]. rewrite exp_0. unfold pymin. cbn. rewrite Rltb_false by lra. reflexivity.
      + intros a r I. destruct (V _ _ I) as (-> & x & -> & Hx). apply logdelta_num; [cbn; lra | exact Logic.I].
  Qed.
  Lemma history_inf h A : orders <> [] -> runs mc (rdp_new orders) h A -> pos_history h -> Forall (fun en => finite_means (fst en)) h ->
    (exists a, In a (history_atoms h) /\ not_private a) ->
    (forall delta, 0 <= delta <= 1 -> rdp_epsilon orders A delta = Ok PInf) /\
    (forall eps, 0 <= eps -> rdp_delta orders A (Fin eps) = Ok (Fin 1)).
  Proof.
    intros Ne R P F X. destruct (rdp_additive frac fuel rel orders h A R P) as [C S]. apply inf_reported; [exact Ne | |].
    - assert (G : good_state A) by (eapply le_good; [apply new_good | eapply runs_grow; [exact R | apply new_good | exact P | exact F]]). apply G.
    - rewrite S. apply total_inf; try exact X.
      + apply Forall_forall. intros a. unfold history_atoms. rewrite in_flat_map. intros ([e' n'] & _ & J). apply copies_In in J. exact (atoms_atom e' a J).
      + apply Forall_forall. exact C.
      + apply Forall_forall. intros a. unfold history_atoms. rewrite in_flat_map. intros ([e' n'] & I & J). apply copies_In in J.
        unfold pos_history in P. rewrite Forall_forall in P. eapply pos_atoms; [exact J | apply (P _ I)].
      + apply Forall_forall. intros a. unfold history_atoms. rewrite in_flat_map. intros ([e' n'] & I & J). apply copies_In in J.
        rewrite Forall_forall in F. eapply finite_atoms; [exact J | apply (F _ I)].
  Qed.
  Lemma never_forgotten cs e n A' cs' : orders <> [] -> Forall plain_call cs -> Forall plain_call cs' -> pos_counts e -> no_repeat e ->
    acc_compose mc (acc_run mc (rdp_new orders) cs) (EventObj e) n = (A', Ok tt) ->
    (exists a, In a (atoms e) /\ not_private a) ->
    let A := acc_run mc A' cs' in
    (forall delta, 0 <= delta <= 1 -> rdp_epsilon orders A delta = Ok PInf) /\
    (forall eps, 0 <= eps -> rdp_delta orders A (Fin eps) = Ok (Fin 1)).
  Proof.
    intros Ne F F' Pc Nr C X A.
    assert (G : good_state (acc_run mc (rdp_new orders) cs)) by (eapply le_good; [apply new_good | apply run_grow; [apply new_good | exact F]]).
    pose proof (no_repeat_finite e Nr) as Fm.
    assert (G' : good_state A') by (eapply le_good; [exact G | eapply compose_grow; [exact G | exact Pc | exact Fm | exact C | left; reflexivity]]).
    pose proof (run_grow cs' A' G' F') as V. apply inf_reported; [exact Ne | apply (le_good _ _ G' V) |].
    eapply le_inf; [|exact V]. exact (compose_inf _ _ _ _ G Pc Fm C X).
  Qed.
End Rdp.

(** Adaptive composition. *)
Lemma combine_add (o s v : list xr) a r : In (a, r) (combine o (vec_add s v)) ->
  exists r1 r2, r = xadd r1 r2 /\ In (a, r1) (combine o s) /\ In (a, r2) (combine o v).
Proof.
  revert s v. induction o as [|b o IH]; intros [|x s] [|y v]; try contradiction. unfold vec_add. cbn [combine map]. intros [[= <- <-]|I].
  - exists x, y. repeat split; left; reflexivity.
  - destruct (IH s v I) as (r1 & r2 & E & I1 & I2). exists r1, r2. repeat split; [exact E | right; assumption ..].
Qed.
Lemma silent_bounded a : order_ok a -> rdp_bounded silent a (Fin 0).
Proof.
  intros Ha.
  assert (R : renyi_bounded silent a (Fin 0)).
  { split; [intros o _ Q; cbn in Q; lra|]. destruct a as [a| | |]; try contradiction.
    - split; [exact Ha|]. unfold renyi, kl, renyi_moment, silent. cbn [outs prP prQ rsum fold_right map]. rewrite (Reqb_false 1 0) by lra. replace (1 / 1) with 1 by lra.
      unfold Rpower. rewrite ln_1, !Rmult_0_r, exp_0. destruct (Reqb a 1); [cbn; lra|].
      replace (1 * 1 + 0) with 1 by ring. rewrite ln_1. unfold Rdiv. rewrite Rmult_0_l. lra.
    - intros o _. cbn. rewrite exp_0. lra. }
  split; exact R.
Qed.
Lemma interaction_curve orders : (forall a, In a orders -> order_ok a) -> forall vs E, Forall (fun v => length v = length orders) vs ->
  interaction (map (rdp_curve orders) vs) E -> rdp_curve orders (vec_sum (length orders) vs) E.
Proof.
  intros HO vs E F H. remember (map (rdp_curve orders) vs) as Cs eqn:EC. revert vs EC F.
  induction H as [|Cs E C E' H IH HC]; intros vs EC F.
  - destruct vs; [|discriminate]. split; [apply valid_silent|]. split; [symmetry; apply repeat_length|]. intros a r I. cbn [vec_sum fold_right] in I.
    pose proof (in_combine_l _ _ _ _ I) as I1. apply in_combine_r in I. apply repeat_spec in I. subst r. apply silent_bounded, HO, I1.
  - symmetry in EC. apply map_eq_app in EC. destruct EC as (vs1 & vs2 & -> & E1 & E2).
    destruct vs2 as [|v [|]]; try discriminate. injection E2 as E2. apply Forall_app in F. destruct F as [F1 F2].
    inversion_clear F2 as [|? ? Lv _].
    destruct (IH vs1 (eq_sym E1) F1) as (V & L & B).
    rewrite (vec_sum_app (length orders) vs1 [v] F1 (Forall_cons v Lv (Forall_nil _))).
    cbn [vec_sum fold_right]. rewrite vec_add_0_r by assumption. fold (vec_sum (length orders) vs1) in *.
    assert (VC : forall a, In a (outs E) -> rdp_curve orders v (E' a)) by (intros a I; rewrite E2; apply HC, I).
    split; [apply valid_seq; [exact V | intros a I; apply (VC a I)]|].
    split; [rewrite (vec_add_length _ _ (length orders)); [reflexivity | congruence | exact Lv]|].
    intros a r I. destruct (combine_add _ _ _ _ _ I) as (r1 & r2 & -> & I1 & I2).
    apply rdp_seq_x; [exact V | intros o J; apply (VC o J) | apply B, I1 |]. intros o J. apply (VC o J), I2.
Qed.

Section Adaptive.
  Context (frac : R -> xr -> xr -> xr) (fuel : nat) (rel : relation) (orders : list xr).
  Notation mc := (rdp_mc frac fuel rel orders).
  Notation unit := (unit_charge frac fuel rel orders).
  Lemma adaptive h A E : (forall a, In a orders -> order_ok a) -> runs mc (rdp_new orders) h A -> pos_history h ->
    interaction (map (fun a => rdp_curve orders (unit a)) (history_atoms h)) E ->
    rdp_curve orders (acc_state A) E /\
    (orders <> [] -> real_orders orders -> forall delta e, rdp_epsilon orders A delta = Ok (Fin e) -> dp_both E e delta) /\
    (forall eps d, rdp_delta orders A (Fin eps) = Ok d -> exists x, d = Fin x /\ 0 <= x <= 1 /\ dp_both E eps x).
  Proof.
    intros HO R P H. destruct (rdp_additive frac fuel rel orders h A R P) as [C S].
    assert (K : rdp_curve orders (acc_state A) E).
    { rewrite S. apply interaction_curve; [exact HO | |rewrite map_map; exact H].
      apply units_length; [|apply Forall_forall; exact C].
      apply Forall_forall. intros a. unfold history_atoms. rewrite in_flat_map. intros ([e' n'] & _ & J). apply copies_In in J. exact (atoms_atom e' a J). }
    split; [exact K|]. unfold rdp_epsilon, rdp_delta. split.
    - intros Ne Ro delta e X. destruct (compute_epsilon orders (acc_state A) delta) as [[x o]|] eqn:Ep; [|discriminate]. injection X as ->.
      eapply epsilon_sound; [exact K | exact Ne | exact Ro | exact Ep].
    - intros eps d X. destruct (compute_delta orders (acc_state A) (Fin eps)) as [[x o]|] eqn:Ep; [|discriminate]. injection X as ->.
      eapply delta_sound; [exact K | | exact Ep]. intros a I. specialize (HO a I). destruct a as [a| | |]; try contradiction; [exists a; left | exists 0; right]; reflexivity.
  Qed.
End Adaptive.
