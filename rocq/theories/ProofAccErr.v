(** The PLD accountant with constructors that are upper bounds up to an error. *)
From Verif Require Import Base XReal Exn PyDict TypesEvent TypesRelation SpecEvent ModelBuilder ProofBuilder ModelCommon ModelPmf ModelPld
  SpecDP SpecPmf SpecPld ProofDP ProofDict ProofPmf ProofCompose ProofCompose2 ProofQuery ProofPld ProofSelf ProofSelfDP
  ModelMake SpecMake ProofRR ModelRdp SpecRenyi SpecRdp ProofConv ProofCharge
  ModelAccountant SpecAccountant SpecAccPld SpecAccErr ProofAccGen ProofAccRdp ProofAccAdd ProofAccPld ProofAccSound ProofErrComp.

Section Within.
  Context (gaussian_pld laplace_pld : xr -> xr -> res pld)
          (mixture_pld : xr -> list xr -> list xr -> res pld)
          (fast_len : nat -> nat) (rel : relation) (disc tail : R) (mech : event num -> exper -> Prop) (err : event num -> R).
  Hypothesis Hf : forall k, (k <= fast_len k)%nat.
  Hypothesis Ht : 0 <= tail.
  Hypothesis Hd : 0 < disc.
  Hypothesis He : forall a, 0 <= err a.
  Notation mc := (pld_mc gaussian_pld laplace_pld mixture_pld fast_len rel disc tail).
  Notation run_within := (run_within gaussian_pld laplace_pld mixture_pld rel tail mech err).
  Notation classes := (run_classes mech).

  Definition Sw (e : R) (Cs : list (exper -> Prop)) (s : pld_state) : Prop :=
    non_dp s = true \/ (wide_pld (cur_pld s) /\ forall E, interaction Cs E -> pld_within e (cur_pld s) E).

  Lemma Sw_flag e Cs s : Sw e Cs (flag s).
  Proof. left. reflexivity. Qed.
  Lemma Sw_le e e' Cs s : e <= e' -> Sw e Cs s -> Sw e' Cs s.
  Proof. intros L [F|[W B]]; [left; exact F | right]. split; [exact W|]. intros E HE. eapply within_le; [exact L | apply B, HE]. Qed.
  Lemma Sw_block e e' Cs Bs s o s' : 0 <= e -> 0 <= e' -> Sw e Cs s -> (forall D, o = Ok D -> sound_pld D /\ forall E, interaction Bs E -> pld_within e' D E) ->
    pld_charge tail s o = (s', Fine) -> Sw (e + e') (Cs ++ Bs) s'.
  Proof.
    intros E0 E1 [F|[W B]] H C; unfold pld_charge in C; destruct o as [D|]; cbn [bind] in C; try discriminate;
      destruct (pld_compose (cur_pld s) D tail) as [r|] eqn:Ec; try discriminate; injection C as <-.
    - left. exact F.
    - right. cbn [cur_pld]. destruct (H D eq_refl) as [HS HB].
      assert (Wr : wide_pld r).
      { destruct W as ((W1 & P1) & (W2 & P2) & S). destruct HS as ((W1' & I1' & P1') & (W2' & I2' & P2') & S').
        destruct (pld_compose_inv _ _ _ _ Ec S S') as (C1 & C2 & SR).
        apply compose_pmfs_ok in C1; [|assumption..]. apply compose_pmfs_ok in C2; [|assumption..].
        split; [|split; [|assumption]].
        - split; [exact (compose_wf _ _ _ _ W1 W1' (or_intror I1') C1)|]. rewrite (co_rpess _ _ _ _ C1); assumption.
        - split; [exact (compose_wf _ _ _ _ W2 W2' (or_intror I2') C2)|]. rewrite (co_rpess _ _ _ _ C2); assumption. }
      split; [exact Wr|]. intros E HE. destruct (interaction_split _ _ _ HE) as (F0 & F1 & H0 & H1 & Iso).
      eapply iso_within; [exact Iso|]. apply (pld_compose_step_err _ _ _ _ _ _ F0 F1 W HS E0 E1 Ec (B F0 H0)). intros a Ha. apply HB, H1, Ha.
  Qed.
  Lemma Sw_silent e Cs (C : exper -> Prop) n s : Sw e Cs s -> (forall E, C E -> no_leak E) -> Sw e (Cs ++ repeat C n) s.
  Proof.
    intros [F|[W B]] H; [left; exact F | right]. split; [exact W|]. induction n as [|n IH]; intros E HE.
    - cbn [repeat] in HE. rewrite app_nil_r in HE. apply B, HE.
    - change (repeat C (S n)) with (C :: repeat C n) in HE. rewrite repeat_cons, app_assoc in HE.
      inversion HE as [K|Cs' E' C' Ec HI HC K]; [destruct Cs, (repeat C n); discriminate|].
      apply app_inj_tail in K. destruct K as [-> ->]. apply no_leak_within; [intros a Ha; apply H, HC, Ha | apply IH, HI].
  Qed.
  Lemma self_within D n e (C : exper -> Prop) : 0 <= e -> within_class e tail n D C ->
    forall r, self_composed fast_len tail D n = Ok r -> sound_pld r /\ forall E, interaction (repeat C (Z.to_nat n)) E -> pld_within (INR (Z.to_nat n) * e) r E.
  Proof.
    intros E0 H r Er. unfold self_composed in Er. destruct D as [D|]; [|discriminate]. cbn [bind] in Er.
    destruct (H D eq_refl) as (S & B & T1 & T2). split; [apply (self_sound _ _ _ _ _ Hf S Ht T1 T2 Er)|].
    intros E HE. apply (self_pld_err _ _ _ _ _ _ Hf S Ht E0 Er). eapply interaction_le; [exact HE | apply repeat_le, B].
  Qed.
  Lemma total_nonneg l : 0 <= total_error err l.
  Proof. apply rsum_nonneg. intros r _. apply Rmult_le_pos; [apply pos_INR | apply He]. Qed.

  Lemma atom_within a n s s' e Cs : atom a -> (1 <= n)%Z -> 0 <= e -> run_within (a, n) -> mc true s a n = (s', Fine) -> Sw e Cs s ->
    Sw (e + INR (Z.to_nat n) * err a) (Cs ++ repeat (mech a) (Z.to_nat n)) s'.
  Proof.
    intros A N E0 R M I. assert (EN : 0 <= INR (Z.to_nat n) * err a) by (apply Rmult_le_pos; [apply pos_INR | apply He]).
    pose proof (Sw_le e (e + INR (Z.to_nat n) * err a) Cs s ltac:(lra) I) as I'.
    destruct a as [ | | | p k | noise_multiplier | noise_multiplier | a c | es | sampling_probability a | b1 b2 a | b1 b2 a | sg l | a m sh | standard_deviation sensitivities probs ]; cbn [pld_mc atom SpecAccErr.run_within] in *; try contradiction; try discriminate.
    - injection M as <-. apply Sw_flag.
    - destruct (relation_eqb rel ADD_OR_REMOVE_ONE); [discriminate|]. destruct R as [-> R]. change (Z.to_nat 1) with 1%nat in *.
      destruct (Z.eqb_spec k 1) as [->|].
      + injection M as <-. apply Sw_silent; [exact I'|]. intros E HE. destruct (R E HE) as (x & _ & Hx). eapply rr_one; exact Hx.
      + destruct (xeqb (nval p) (Fin 0)); [injection M as <-; apply Sw_flag|].
        eapply Sw_block; [exact E0 | exact EN | exact I | | exact M]. intros D HD. destruct (nval p) as [x| | |] eqn:Ep; try discriminate.
        destruct (rr_inv _ _ _ _ _ _ HD) as (Hp & Hk & Hr & _).
        assert (SP : sound_pld D).
        { destruct rel; [congruence| |].
          - apply (rr_pessimistic x k disc REPLACE_ONE D (rr_exper x k 0 1) Hd HD).
            exists 0%Z, 1%Z. repeat split; try (apply buckets_In; lia). discriminate.
          - apply (rr_pessimistic x k disc REPLACE_SPECIAL D (rr_special x k 0) Hd HD).
            exists 0%Z. split; [apply buckets_In; lia | reflexivity]. }
        split; [exact SP|]. intros E HE.
        destruct (interaction_one _ _ HE) as (F & HF & Iso). eapply iso_within; [exact Iso|].
        destruct (R F HF) as (y & Ey & HP). injection Ey as <-. eapply within_le; [exact EN|]. apply within_bounds, (rr_pessimistic x k disc rel D F Hd HD HP).
    - destruct (xeqb (nval noise_multiplier) (Fin 0)); [injection M as <-; apply Sw_flag|].
      destruct (Z.ltb_spec n 0); [discriminate|]. destruct (Z.eqb_spec n 0); [discriminate|].
      eapply Sw_block; [exact E0 | exact EN | exact I | | exact M]. intros D HD. destruct (R D HD) as [S B]. split; [exact S|]. intros E HE. eapply within_le; [exact EN | apply within_bounds, B, HE].
    - destruct (xeqb (nval noise_multiplier) (Fin 0)); [injection M as <-; apply Sw_flag|].
      eapply Sw_block; [exact E0 | exact EN | exact I | apply self_within; [apply He | exact R] | exact M].
    - destruct (relation_eqb rel REPLACE_ONE); [discriminate|].
      destruct a; try discriminate; destruct R as [R1 R2];
        (destruct (xeqb (nval sampling_probability) (Fin 0)) eqn:Q;
         [injection M as <-; apply Sw_silent; [exact I' | apply R1, xeqb_0, Q]|]);
        (destruct (xeqb (nval noise_multiplier) (Fin 0)); [injection M as <-; apply Sw_flag|]);
        (eapply Sw_block; [exact E0 | exact EN | exact I | apply self_within; [apply He | exact R2] | exact M]).
    - destruct R as [R1 R2].
      destruct (match sensitivities with [x] => xeqb (nval x) (Fin 0) | _ => false end) eqn:Q.
      { destruct sensitivities as [|x [|y l]]; try discriminate. injection M as <-. apply Sw_silent; [exact I' | apply R1, xeqb_0, Q]. }
      destruct (xeqb (nval standard_deviation) (Fin 0)); [injection M as <-; apply Sw_flag|].
      eapply Sw_block; [exact E0 | exact EN | exact I | apply self_within; [apply He | exact R2] | exact M].
  Qed.

  Lemma total_app l1 l2 : total_error err (l1 ++ l2) = total_error err l1 + total_error err l2.
  Proof. apply rsum_app. Qed.

  Lemma event_within : forall a n s s' e Cs, pos_counts a -> (1 <= n)%Z -> 0 <= e -> Forall run_within (runs_of a n) -> mc true s a n = (s', Fine) -> Sw e Cs s ->
    Sw (e + total_error err (runs_of a n)) (Cs ++ classes (runs_of a n)) s'.
  Proof.
    assert (At : forall a n s s' e Cs, atom a -> (1 <= n)%Z -> 0 <= e -> Forall run_within (runs_of a n) -> mc true s a n = (s', Fine) -> Sw e Cs s ->
      Sw (e + total_error err (runs_of a n)) (Cs ++ classes (runs_of a n)) s').
    { intros a n s s' e Cs A N E0 R M I. rewrite (runs_of_atom mech a n A) in R |- *. rewrite classes_one. unfold total_error. cbn [rsum fst snd]. rewrite Rplus_0_r.
      inversion_clear R as [|? ? R1 _]. eapply atom_within; eassumption. }
    induction a as [ | | | p k | sg | sg | e0 c IH | es IH | q e0 IH | a b e0 IH | a b e0 IH | sg l | e0 m sh IH | sg a b ] using event_ind';
      intros n s s' e Cs P N E0 R M I; try (match goal with |- Sw _ (_ ++ classes (runs_of ?x n)) s' => apply (At x n s s' e Cs Logic.I N E0 R M I) end).
    - cbn [pld_mc] in M. injection M as <-. unfold total_error. cbn. rewrite app_nil_r, Rplus_0_r. exact I.
    - cbn [pld_mc runs_of] in *. destruct P as [P1 P2]. eapply (IH (c * n)%Z); [exact P2 | nia | exact E0 | exact R | exact M | exact I].
    - rewrite pld_composed in M. cbn [runs_of] in *. clear At. revert s e Cs E0 M I. induction IH as [|x l Hx _ IH2]; intros s e Cs E0 M I.
      + cbn in *. injection M as <-. unfold total_error. cbn. rewrite app_nil_r, Rplus_0_r. exact I.
      + cbn [pos_counts] in P. destruct P as [P1 P2]. cbn [flat_map] in *. apply Forall_app in R. destruct R as [R1 R2].
        cbn [seq_mc] in M. destruct (mc true s x n) as [s1 [| |y]] eqn:M1; try discriminate.
        rewrite classes_app, app_assoc, total_app, <- Rplus_assoc. pose proof (total_nonneg (runs_of x n)).
        eapply IH2; [exact P2 | exact R2 | lra | exact M | eapply Hx; eassumption].
  Qed.

  Lemma runs_within A h A' e Cs : runs mc A h A' -> pos_history h -> 0 <= e -> Forall run_within (history_runs h) -> Sw e Cs (acc_state A) ->
    Sw (e + total_error err (history_runs h)) (Cs ++ classes (history_runs h)) (acc_state A').
  Proof.
    intros H. revert e Cs. induction H as [A|A a n A1 h A' C H IH]; intros e Cs P E0 R I.
    - unfold total_error. cbn. rewrite app_nil_r, Rplus_0_r. exact I.
    - inversion_clear P as [|? ? [Pn Pe] P']. cbn [fst snd] in *.
      apply (compose_Ok mc (pld_dry gaussian_pld laplace_pld mixture_pld fast_len rel disc tail)
        (pld_dry_pure gaussian_pld laplace_pld mixture_pld fast_len rel disc tail)
        (pld_fine_unsup gaussian_pld laplace_pld mixture_pld fast_len rel disc tail)) in C.
      destruct C as (_ & b & _ & _ & M). unfold history_runs in *. cbn [flat_map fst snd] in *. apply Forall_app in R. destruct R as [R1 R2].
      rewrite classes_app, app_assoc, total_app, <- Rplus_assoc. pose proof (total_nonneg (runs_of a n)).
      apply IH; [exact P' | lra | exact R2|]. eapply event_within; eassumption.
  Qed.

  Lemma dp_one_more E eps d : valid E -> 1 <= d -> dp_both E eps d.
  Proof. intros V D. destruct (dp_one E eps V) as [X Y]. split; eapply dp_mono; try apply X; try apply Y; try lra; auto. apply valid_swap, V. Qed.
  Lemma pld_accountant_within A0 h A E : pld_new disc = Ok A0 -> runs mc A0 h A -> pos_history h ->
    Forall run_within (history_runs h) -> (forall a F, mech a F -> valid F) ->
    interaction (classes (history_runs h)) E ->
    (forall eps, dp_both E eps (pldacc_delta (acc_state A) (Fin eps) + total_error err (history_runs h))) /\
    (forall delta e, pldacc_epsilon (acc_state A) delta = Ok (Fin e) -> dp_both E e (delta + total_error err (history_runs h))).
  Proof.
    intros N H P R V HE. unfold pld_new in N. destruct (identity disc) as [D|] eqn:Ei; [|discriminate]. injection N as <-.
    assert (S0 : Sw 0 [] (mkPldState false D)).
    { right. cbn [cur_pld]. split; [apply sound_wide, (identity_sound disc); assumption|].
      intros F HF. apply within_bounds. inversion HF as [K|Cs ? ? ? ? ? K]; [apply (identity_bounds disc); assumption | destruct Cs; discriminate]. }
    pose proof (total_nonneg (history_runs h)) as TN.
    pose proof (runs_within _ _ _ 0 [] H P (Rle_refl 0) R S0) as [F|[W B]]; unfold pldacc_delta, pldacc_epsilon.
    - rewrite F. split; [|discriminate]. intros eps. apply dp_one_more; [|lra]. eapply interaction_valid; [exact HE|].
      intros C G J HC. unfold run_classes in J. apply in_flat_map in J. destruct J as (r & _ & J). apply repeat_spec in J. subst C. eapply V; exact HC.
    - cbn [app] in B. specialize (B E HE). rewrite Rplus_0_l in B. destruct (non_dp (acc_state A)) eqn:Fl.
      + split; [|discriminate]. intros eps. apply dp_one_more; [apply B | lra].
      + split; [intros; apply within_delta_sound; assumption | intros delta e Hde; eapply within_epsilon_sound; eassumption].
  Qed.
End Within.
