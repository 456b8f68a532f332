(** The ledger of the RDP accountant, and the effective noise of Gaussian compositions. *)
From Coq Require Import Permutation.
From Verif Require Import Base XReal Exn TypesEvent TypesRelation SpecEvent ModelBuilder ProofBuilder ModelMake
  ModelRdp ModelAccountant SpecAccountant ProofAccGen ProofAccRdp ProofAccAdd.
Local Arguments Rltb : simpl never.
Local Arguments Rleb : simpl never.
Local Arguments Reqb : simpl never.

Lemma nval_inj a b : is_float a = true -> is_float b = true -> nval a = nval b -> a = b.
Proof. destruct a, b; cbn; congruence. Qed.
Lemma map_nval_inj l l' : Forall (fun n => is_float n = true) l -> Forall (fun n => is_float n = true) l' -> map nval l = map nval l' -> l = l'.
Proof.
  intros H. revert l'. induction H as [|a l Ha _ IH]; intros [|b l'] H' E; try discriminate; [reflexivity|].
  inversion_clear H' as [|? ? Hb H2]. cbn in E. injection E as E1 E2. f_equal; [apply nval_inj; assumption | apply IH; assumption].
Qed.
Lemma value_inj : forall e e', floats e -> floats e' -> value e = value e' -> e = e'.
Proof.
  unfold value.
  induction e as [ | | | p k | s | s | e c IH | es IH | q e IH | a b e IH | a b e IH | s l | e m sh IH | s a b ] using event_ind';
    intros e' F F' E; destruct e'; try discriminate; cbn [emap floats] in *; try reflexivity.
  - injection E as E1 E2. subst. f_equal. apply nval_inj; assumption.
  - injection E as E1. f_equal. apply nval_inj; assumption.
  - injection E as E1. f_equal. apply nval_inj; assumption.
  - injection E as E1 E2. subst. f_equal. apply IH; assumption.
  - injection E as E. f_equal. revert es0 F' E. induction IH as [|x l Hx _ IH2]; intros [|y l'] F' E; try discriminate; [reflexivity|].
    destruct F as [F1 F2], F' as [F1' F2']. cbn in E. injection E as E1 E2. f_equal; [apply Hx; assumption | apply IH2; assumption].
  - injection E as E1 E2. destruct F, F'. f_equal; [apply nval_inj; assumption | apply IH; assumption].
  - injection E as E1 E2 E3. subst. f_equal. apply IH; assumption.
  - injection E as E1 E2 E3. subst. f_equal. apply IH; assumption.
  - injection E as E1 E2. subst. f_equal. apply nval_inj; assumption.
  - injection E as E1 E2 E3. destruct F as (F1 & F2 & F3), F' as (F1' & F2' & F3').
    f_equal; [apply IH; assumption | apply nval_inj; assumption ..].
  - injection E as E1 E2 E3. destruct F as (F1 & F2 & F3), F' as (F1' & F2' & F3').
    f_equal; [apply nval_inj; assumption | apply map_nval_inj; assumption ..].
Qed.
Lemma map_value_inj l l' : Forall floats l -> Forall floats l' -> map value l = map value l' -> l = l'.
Proof.
  intros H. revert l'. induction H as [|a l Ha _ IH]; intros [|b l'] H' E; try discriminate; [reflexivity|].
  inversion_clear H' as [|? ? Hb H2]. cbn in E. injection E as E1 E2. f_equal; [apply value_inj; assumption | apply IH; assumption].
Qed.

Lemma atoms_value : forall e : event num, atoms (value e) = map value (atoms e).
Proof.
  induction e as [ | | | p k | s | s | e c IH | es IH | q e IH | a b e IH | a b e IH | s l | e m sh IH | s a b ] using event_ind'; try reflexivity.
  - cbn [atoms value emap]. fold (value e). rewrite IH, copies_map. reflexivity.
  - cbn [atoms value emap]. induction IH as [|x l Hx _ IH2]; [reflexivity|]. cbn [map flat_map]. fold (value x). rewrite Hx, map_app, IH2. reflexivity.
Qed.
Lemma history_value (h : list (event num * Z)) : history_atoms (by_value h) = map value (history_atoms h).
Proof.
  unfold history_atoms, by_value. induction h as [|[e n] h IH]; [reflexivity|]. cbn [map flat_map fst snd].
  rewrite IH, map_app, atoms_value, copies_map. reflexivity.
Qed.
Lemma floats_atoms e a : In a (atoms e) -> floats e -> floats a.
Proof.
  induction e as [ | | | p k | s | s | e c IH | es IH | q e IH | u b e IH | u b e IH | s l | e m sh IH | s u b ] using event_ind';
    cbn [atoms]; intros J P; try (destruct J as [<-|[]]; exact P).
  - contradiction.
  - apply IH; [apply (copies_In _ _ _ J) | apply P].
  - cbn in P. induction IH as [|x l Hx _ IH2]; [contradiction|]. destruct P as [P1 P2]. cbn [flat_map] in J. rewrite in_app_iff in J.
    destruct J as [J|J]; [apply Hx; assumption | apply IH2; assumption].
Qed.

(** Properties of events that composing into a builder preserves. *)
Section Keep.
  Context (P : event num -> Prop) (HP : forall e c, P (SelfComposed e c) -> P e).
  Lemma push_keep l e n : Forall (fun r => P (fst r)) l -> P e -> Forall (fun r => P (fst r)) (push_count l e n).
  Proof.
    intros Hl He. unfold push_count. destruct (rev l) as [|[e' m] r] eqn:E.
    - constructor; [exact He | constructor].
    - apply rev_eq_cons in E. subst l. apply Forall_app in Hl. destruct Hl as [H1 H2]. inversion_clear H2 as [|? ? H3 _].
      destruct (event_eqb e' e).
      + apply Forall_app. split; [exact H1|]. constructor; [exact He | constructor].
      + apply Forall_app. split; [apply Forall_app; split; [exact H1 | constructor; [exact H3 | constructor]]|]. constructor; [exact He | constructor].
  Qed.
  Lemma compose_keep b : forall e n, Forall (fun r => P (fst r)) (event_counts b) -> P e ->
    Forall (fun r => P (fst r)) (event_counts (fst (builder_compose b e n))).
  Proof.
    induction e as [ | | | p k | s | s | e c IH | es IH | q e IH | u v e IH | u v e IH | s l | e m sh IH | s u v ] using event_ind';
      intros n H He; cbn [builder_compose]; destruct (n <? 1)%Z; try exact H; try (cbn [fst event_counts]; apply push_keep; assumption).
    apply IH; [exact H | apply (HP _ _ He)].
  Qed.
End Keep.

Section Ledger.
  Context (frac : R -> xr -> xr -> xr) (fuel : nat) (rel : relation) (orders : list xr).
  Notation mc := (rdp_mc frac fuel rel orders).
  Notation dry := (rdp_dry frac fuel rel orders).
  Notation pure := (rdp_dry_pure frac fuel rel orders).
  Notation unsup := (rdp_fine_unsup frac fuel rel orders).

  Definition ok_event (e : event num) : Prop := floats e /\ pos_counts e.
  Lemma ok_self e c : ok_event (SelfComposed e c) -> ok_event e.
  Proof. intros [F [_ P]]. split; assumption. Qed.

  Lemma runs_ledger A h A' : runs mc A h A' -> pos_history h -> Forall (fun en => floats (fst en)) h ->
    builder_inv (acc_ledger A) -> Forall (fun r => ok_event (fst r)) (event_counts (acc_ledger A)) ->
    builder_inv (acc_ledger A') /\ Forall (fun r => ok_event (fst r)) (event_counts (acc_ledger A')) /\
    history_atoms (by_value (event_counts (acc_ledger A'))) =
    history_atoms (by_value (event_counts (acc_ledger A))) ++ history_atoms (by_value h).
  Proof.
    intros R. induction R as [A|A e n A1 h A' C R IH]; intros P F I O.
    - rewrite app_nil_r. repeat split; try assumption; apply I.
    - inversion_clear P as [|? ? [Pn Pe] P']. inversion_clear F as [|? ? Fe F']. cbn [fst snd] in *.
      apply (compose_Ok mc dry pure unsup) in C. destruct C as (_ & b & B & L & _).
      pose proof (builder_compose_spec (acc_ledger A) e n (proj1 I)) as S. rewrite (pos_good e n Pe Pn) in S. destruct S as [_ S].
      pose proof (builder_compose_inv (acc_ledger A) e n I) as I1.
      pose proof (compose_keep ok_event ok_self (acc_ledger A) e n O (conj Fe Pe)) as O1.
      rewrite B in *. cbn [fst] in *. rewrite <- L in *.
      destruct (IH P' F' I1 O1) as (J1 & J2 & J3). split; [exact J1|]. split; [exact J2|]. rewrite J3, S, <- app_assoc. f_equal.
  Qed.
  Lemma composed_pos l : Forall run_ok l -> Forall (fun r => ok_event (fst r)) l -> pos_counts (composed_of l) /\ floats (composed_of l).
  Proof.
    intros R O.
    assert (K : forall r, run_ok r -> ok_event (fst r) -> ok_event (run_event r)).
    { intros [e n] [N _] [F P]. unfold run_event. cbn [fst snd] in *. destruct (n =? 1)%Z; [split; assumption|]. split; [exact F | split; assumption]. }
    unfold composed_of.
    assert (G : pos_counts (Composed (map run_event l)) /\ floats (Composed (map run_event l))).
    { clear - R O K. cbn [pos_counts floats]. induction R as [|r l Hr _ IH]; [split; exact I|]. inversion_clear O as [|? ? H1 H2]. cbn [map].
      destruct (K r Hr H1) as [F P]. destruct (IH H2). repeat split; assumption. }
    destruct l as [|r [|r' l]]; [split; exact I | | exact G].
    cbn [map]. inversion_clear R as [|? ? H1 _]. inversion_clear O as [|? ? H2 _]. destruct (K r H1 H2). split; assumption.
  Qed.

  (** C06: the ledger describes the history, and replaying it gives the same state. *)
  Lemma ledger_replay h A : runs mc (rdp_new orders) h A -> pos_history h -> Forall (fun en => floats (fst en)) h ->
    let L := snd (acc_get_ledger A) in
    atoms L = history_atoms h /\
    exists A', acc_compose mc (rdp_new orders) (EventObj L) 1 = (A', Ok tt) /\ acc_state A' = acc_state A.
  Proof.
    intros R P F L.
    assert (N : builder_inv (acc_ledger (rdp_new orders))) by apply new_inv.
    destruct (runs_ledger _ _ _ R P F N (Forall_nil _)) as (I & O & X).
    assert (EL : L = composed_of (event_counts (acc_ledger A))).
    { unfold L, acc_get_ledger. pose proof (build_eq (acc_ledger A) I) as B. destruct (builder_build (acc_ledger A)). exact B. }
    destruct (composed_pos _ (proj1 I) O) as [Pl Fl]. rewrite <- EL in Pl, Fl.
    assert (At : atoms L = history_atoms h).
    { apply map_value_inj.
      - apply Forall_forall. intros a J. eapply floats_atoms; eassumption.
      - apply Forall_forall. intros a J. unfold history_atoms in J. apply in_flat_map in J. destruct J as ([e n] & J1 & J2).
        apply copies_In in J2. rewrite Forall_forall in F. eapply floats_atoms; [exact J2 | apply (F _ J1)].
      - rewrite <- atoms_value, EL, atoms_composed_of by apply I. etransitivity; [exact X|]. cbn. rewrite history_value. reflexivity. }
    split; [exact At|].
    destruct (rdp_order_free frac fuel rel orders h [(L, 1%Z)] A R P) as (A' & R' & S).
    - constructor; [|constructor]. split; [cbn; lia | exact Pl].
    - rewrite history_atoms_one, copies_1, At. apply Permutation_refl.
    - inversion_clear R' as [|? ? ? A1 ? ? C R2]. inversion R2; subst. exists A'. split; assumption.
  Qed.
End Ledger.

(** ** Effective noise *)
Lemma gaussian_eff : forall e, gaussian_tree e ->
  exists s, effective_noise e = Ok (EffNum (PyFloat s)) /\ 0 < s /\
    / (s * s) = rsum (fun a => / (sigma_of a * sigma_of a)) (atoms e).
Proof.
  induction e as [ | | | p k | s | s | e c IH | es IH | q e IH | a b e IH | a b e IH | s l | e m sh IH | s a b ] using event_ind';
    intros H; try contradiction.
  - destruct s as [z|r|]; try contradiction. exists r. cbn in *. repeat split; [exact H | lra].
  - destruct H as [C H]. destruct (IH H) as (s & E & Hs & Sum). cbn [effective_noise]. rewrite E. cbn [bind].
    destruct (Z.eqb_spec c 0); [lia|]. destruct (Z.ltb_spec c 0); [lia|]. exists (s * / sqrt (IZR c)).
    assert (Cp : 0 < IZR c) by (apply IZR_lt; lia). pose proof (sqrt_lt_R0 _ Cp) as Sp.
    split; [reflexivity|]. split; [apply Rmult_lt_0_compat; [exact Hs | apply Rinv_0_lt_compat, Sp]|].
    replace (s * / sqrt (IZR c) * (s * / sqrt (IZR c))) with (s * s / (sqrt (IZR c) * sqrt (IZR c))) by (field; lra).
    rewrite sqrt_sqrt by lra. cbn [atoms].
    assert (K : forall m, rsum (fun a => / (sigma_of a * sigma_of a)) (copies m (atoms e)) = INR m * / (s * s)).
    { induction m as [|m IHm]; cbn [copies rsum]; [cbn; lra|]. rewrite rsum_app, IHm, <- Sum, S_INR. lra. }
    rewrite K, INR_IZR_INZ, Z2Nat.id by lia. field. split; [nra | lra].
  - destruct H as [Ne H]. rewrite eff_composed.
    assert (K : forall z, 0 <= z -> exists y, rsum (fun a => / (sigma_of a * sigma_of a)) (flat_map atoms es) = y /\ 0 <= y /\ (es <> [] -> 0 < y) /\
              eff_seq es z = if Reqb (z + y) 0 then Err ZeroDivisionError else Ok (EffNum (PyFloat (/ sqrt (z + y))))).
    { clear Ne. induction IH as [|x l Hx _ IH2]; intros z Hz; cbn [flat_map eff_seq rsum].
      - exists 0. rewrite Rplus_0_r. repeat split; [lra | congruence].
      - destruct H as [H1 H2]. destruct (Hx H1) as (s & E & Hs & Sum). rewrite E. cbn [bind]. rewrite Reqb_false by lra.
        assert (Q : 0 < / (s * s)) by (apply Rinv_0_lt_compat; nra).
        destruct (IH2 H2 (z + / (s * s)) ltac:(lra)) as (y & Ey & Hy & _ & Es). exists (/ (s * s) + y).
        rewrite rsum_app, <- Sum, Ey. split; [reflexivity|]. split; [lra|]. split; [intros _; lra|]. rewrite Es, Rplus_assoc. reflexivity. }
    destruct (K 0 ltac:(lra)) as (y & Ey & _ & Hy & Es). specialize (Hy Ne). rewrite Rplus_0_l, Reqb_false in Es by lra.
    exists (/ sqrt y). pose proof (sqrt_lt_R0 _ Hy). split; [exact Es|]. split; [apply Rinv_0_lt_compat; assumption|].
    cbn [atoms]. rewrite Ey, <- Rinv_mult, sqrt_sqrt, Rinv_inv by lra. reflexivity.
Qed.
Lemma gaussian_effective e : gaussian_tree e -> exists s, 0 < s /\ / (s * s) = rsum (fun a => / (sigma_of a * sigma_of a)) (atoms e) /\
  forall frac fuel rel orders dc state n,
    (forall q, rdp_mc frac fuel rel orders dc state (PoissonSampled q e) n =
               rdp_mc frac fuel rel orders dc state (PoissonSampled q (Gaussian (PyFloat s))) n) /\
    (forall a b, rdp_mc frac fuel rel orders dc state (SampledWithoutReplacement a b e) n =
                 rdp_mc frac fuel rel orders dc state (SampledWithoutReplacement a b (Gaussian (PyFloat s))) n).
Proof.
  intros H. destruct (gaussian_eff e H) as (s & E & Hs & Sum). exists s. split; [exact Hs|]. split; [exact Sum|].
  intros. split; intros; cbn [rdp_mc]; rewrite E; reflexivity.
Qed.

Lemma mixed_gaussian : forall e, mixed_tree e -> other_leaf e = false -> gaussian_tree e.
Proof.
  induction e as [ | | | p k | s | s | e c IH | es IH | q e IH | a b e IH | a b e IH | s l | e m sh IH | s a b ] using event_ind';
    intros H O; try discriminate.
  - exact H.
  - destruct H as [C H]. split; [exact C | apply IH; assumption].
  - destruct H as [Ne H]. split; [exact Ne|]. clear Ne. cbn [other_leaf] in O. induction IH as [|x l Hx _ IH2]; [exact Logic.I|].
    cbn [existsb] in O. apply orb_false_iff in O. destruct H, O. split; [apply Hx | apply IH2]; assumption.
Qed.
Lemma mixed_eff : forall e, mixed_tree e -> other_leaf e = true -> exists b, effective_noise e = Ok (EffBad b).
Proof.
  induction e as [ | | | p k | s | s | e c IH | es IH | q e IH | a b e IH | a b e IH | s l | e m sh IH | s a b ] using event_ind';
    intros H O; try (eexists; reflexivity).
  - discriminate.
  - destruct H as [C H]. destruct (IH H O) as [b E]. cbn [effective_noise]. rewrite E. exists b. reflexivity.
  - rewrite eff_composed. destruct H as [_ H]. cbn [other_leaf] in O. generalize 0 as z. induction IH as [|x l Hx _ IH2]; intros z; [discriminate|].
    destruct H as [H1 H2]. cbn [existsb] in O. cbn [eff_seq]. destruct (other_leaf x) eqn:Ox.
    + destruct (Hx H1 eq_refl) as [b E]. rewrite E. exists b. reflexivity.
    + destruct (gaussian_eff x (mixed_gaussian x H1 Ox)) as (s & E & Hs & _). rewrite E. cbn [bind]. rewrite Reqb_false by lra. apply IH2; assumption.
Qed.
Lemma mixed_unsupported e : mixed_tree e -> other_leaf e = true -> forall frac fuel rel orders A n,
  (forall q, acc_compose (rdp_mc frac fuel rel orders) A (EventObj (PoissonSampled q e)) n = (A, Err UnsupportedEventError)) /\
  (forall a b, acc_compose (rdp_mc frac fuel rel orders) A (EventObj (SampledWithoutReplacement a b e)) n = (A, Err UnsupportedEventError)).
Proof.
  intros M O frac fuel rel orders A n. destruct (mixed_eff e M O) as [b E].
  split; intros; apply (unsup_compose _ (rdp_dry frac fuel rel orders) (rdp_dry_pure frac fuel rel orders));
    unfold rdp_dry; cbn [rdp_mc]; rewrite E; destruct (relation_eqb _ _); reflexivity.
Qed.
