(** Sampling without replacement: the accountant's bound holds. *)
From Coq Require Import Permutation FunctionalExtensionality.
From Verif Require Import Base XReal Exn TypesEvent TypesRelation SpecEvent SpecDP SpecMake SpecMech SpecRenyi SpecRdp SpecNoiseAcc SpecAccPld SpecAccountant SpecWor SpecRdpEvent.
From Verif Require Import ModelMake ModelRdp ProofDP ProofRenyi ProofPoisson ProofRdpAtom ProofRdpSample ProofWorGauss ProofWorMix ProofWorSample ProofWorCode.
Local Open Scope R_scope.
Local Arguments Rltb : simpl never.
Local Arguments Rleb : simpl never.
Local Arguments Reqb : simpl never.

Lemma replaces_sym {X} (u v : list X) : replaces u v -> replaces v u.
Proof. intros (x & y & w & A & B). exists y, x, w. auto. Qed.
Lemma on_sample_perm {X O} m (run : list X -> O -> R) u v : (forall s s', Permutation s s' -> forall o, run s o = run s' o) -> Permutation u v -> on_sample m run u = on_sample m run v.
Proof.
  intros H P. apply functional_extensionality. intros o. unfold on_sample. rewrite (samples_perm u v P m (fun s => run s o)), (samples_count u v m P); [reflexivity|].
  intros s s' Ps. apply H, Ps.
Qed.
Lemma on_sample_0 {X O} (run : list X -> O -> R) u : on_sample 0 run u = run [].
Proof. apply functional_extensionality. intros o. unfold on_sample. rewrite samples_0. cbn [rsum length INR]. field. Qed.
Lemma on_sample_all {X O} (run : list X -> O -> R) u : on_sample (length u) run u = run u.
Proof. apply functional_extensionality. intros o. unfold on_sample. rewrite samples_all. cbn [rsum length INR]. field. Qed.

Lemma order_bound q s a r (E : exper) : 0 < q < 1 -> 0 < s -> 1 < a -> valid E -> absolutely_continuous E ->
  (forall n, (1 <= n)%nat -> renyi_moment E (INR n) <= expansion q (/ (2 * (s * s))) n) ->
  wor_order q (SNum (Fin s)) (Fin a) = Ok r -> exists x, r = Fin x /\ renyi_bounded E (Fin a) (Fin x).
Proof.
  intros Hq Hs Ha V AC M H. unfold wor_order in H. rewrite (Rleb_true q 1), (Rleb_true 0 q) in H by lra. cbn [xleb] in H. rewrite (Rleb_true 1 a) in H by lra. cbn [andb negb] in H.
  rewrite (Reqb_false q 0), (Reqb_false q 1), (Reqb_false a 1), (Reqb_false s 0) in H by lra.
  set (h := / (2 * (s * s))) in *. assert (Hh : 0 < h) by (unfold h; apply Rinv_0_lt_compat; nra).
  pose proof (Rfloor_spec a) as [F1 F2]. assert (FZ : (1 <= Rfloor a)%Z) by (apply le_IZR; apply Rnot_lt_le; intros L; assert (Rfloor a < 1)%Z by (apply lt_IZR; lra); assert (IZR (Rfloor a) <= 0) by (apply IZR_le; lia); lra).
  set (f := Z.to_nat (Rfloor a)) in *. assert (Ef : INR f = IZR (Rfloor a)) by (unfold f; rewrite INR_IZR_INZ, Z2Nat.id by lia; reflexivity).
  assert (Hf : (1 <= f)%nat) by (unfold f; lia). destruct (wor_value q h Hq Hh f Hf) as (xf & Vf & Bf). pose proof (M f Hf) as Mf.
  cbv zeta in H. destruct (is_integer a) eqn:I.
  - unfold is_integer in I. destruct (Reqb_spec a (IZR (Rfloor a))) as [Ea|]; [|discriminate]. rewrite Vf in H. cbn [xr_of_logp xdiv] in H. rewrite Reqb_false in H by lra. injection H as <-.
    eexists. split; [reflexivity|]. split; [exact AC|]. split; [lra|]. apply renyi_moment_le; try assumption.
    replace ((a - 1) * (xf / (a - 1))) with xf by (field; lra). replace a with (INR f) by lra. lra.
  - unfold is_integer in I. destruct (Reqb_spec a (IZR (Rfloor a))) as [|Na]; [discriminate|].
    assert (CZ : Rceil a = (Rfloor a + 1)%Z).
    { pose proof (Rceil_spec a) as [C1 C2]. assert (Rfloor a < Rceil a)%Z by (apply lt_IZR; lra). assert (Rceil a < Rfloor a + 2)%Z by (apply lt_IZR; rewrite plus_IZR; lra). lia. }
    rewrite CZ in H. set (c := Z.to_nat (Rfloor a + 1)) in *. assert (Ec : INR c = INR f + 1).
    { unfold c. rewrite INR_IZR_INZ, Z2Nat.id by lia. rewrite plus_IZR, Ef. reflexivity. }
    assert (Hc : (1 <= c)%nat) by (unfold c; lia). destruct (wor_value q h Hq Hh c Hc) as (xc & Vc & Bc). pose proof (M c Hc) as Mc.
    rewrite Vf, Vc in H. cbn [xr_of_logp xmul xadd xdiv] in H. rewrite Reqb_false in H by lra. injection H as <-.
    set (t := a - IZR (Rfloor a)) in *.
    eexists. split; [reflexivity|]. split; [exact AC|]. split; [lra|]. apply renyi_moment_le; try assumption.
    replace ((a - 1) * (((1 - t) * xf + t * xc) / (a - 1))) with ((1 - t) * xf + t * xc) by (field; lra).
    replace a with ((1 - t) * INR f + t * INR c) by (rewrite Ec, Ef; unfold t; ring).
    apply moment_between; try assumption; try lra. unfold t. lra.
Qed.

Section Wor.
  Context (Phi : R -> R) (HPhi : normal_cdf Phi).
  Lemma wor_bounded e n m E : sampled_without_replacement (sample_of Phi e) n m E ->
    (0 < n)%nat /\ valid E /\ forall sv a r, (forall x, effective_noise e = Ok (EffNum x) -> sv = SNum (nval x)) -> order_ok a -> a <> Fin 1 ->
      wor_order (INR m / INR n) sv a = Ok r -> rdp_bounded E a r.
  Proof.
    intros (X & O & os & run & data & data' & Ln & Le & (x & y & l & Px & Py) & HL & HP & HC & ->).
    rewrite (on_sample_perm m run data _ HP Px), (on_sample_perm m run data' _ HP Py).
    assert (N : n = S (length l)) by (rewrite <- Ln, (Permutation_length Px); reflexivity). split; [lia|].
    assert (Hn : 0 < INR n) by (apply lt_0_INR; lia).
    destruct (Nat.eq_dec m 0) as [->|M0].
    { rewrite !on_sample_0. destruct (HL [] eq_refl) as [P S1].
      assert (NL : no_leak (mkExper O os (run []) (run []))) by (split; [split; [intros o Ho; split; apply P, Ho | split; exact S1] | reflexivity]).
      split; [apply NL|]. intros sv a r _ HO _ H. unfold wor_order in H. change (INR 0) with 0 in H. replace (0 / INR n) with 0 in H by (field; lra).
      destruct (negb _); [discriminate|]. rewrite Reqb_true in H by reflexivity. injection H as <-. apply no_leak_bounded; assumption. }
    destruct m as [|m]; [lia|].
    assert (RR : forall u v : X, forall w, replaces (u :: w) (v :: w)) by (intros u v w; exists u, v, w; split; reflexivity).
    assert (EN : exists w, length w = m /\ exists t, Permutation (w ++ t) l).
    { exists (firstn m l). split; [apply firstn_length_le; lia|]. exists (skipn m l). rewrite firstn_skipn. reflexivity. }
    destruct EN as (w & Lw & _).
    destruct (records_of Phi HPhi e _ (HC (x :: w) (x :: w) ltac:(cbn; lia) (RR x x w))) as (mm & s & Ef & Hm & _).
    assert (HR : forall u v, length u = S m -> replaces u v -> on_records s (mkExper O os (run u) (run v))).
    { intros u v Lu R. destruct (records_of Phi HPhi e _ (HC u v Lu R)) as (mm' & s' & Ef' & Hm' & G). rewrite Ef in Ef'. injection Ef' as <-. rewrite Hm in Hm'. injection Hm' as <-. exact G. }
    destruct (Nat.eq_dec m (length l)) as [El|Nl].
    { assert (OA : forall z, on_sample (S m) run (z :: l) = run (z :: l)) by (intros z; rewrite El; exact (on_sample_all run (z :: l))). rewrite !OA.
      destruct (HR (x :: l) (y :: l) ltac:(cbn; lia) (RR x y l)) as [V B]. split; [exact V|]. intros sv a r Hsv HO N1 H. rewrite (Hsv mm Ef), Hm in H.
      unfold wor_order in H. rewrite N, El in H. replace (INR (S (length l)) / INR (S (length l))) with 1 in H by (field; rewrite <- N; lra).
      destruct (negb _); [discriminate|]. rewrite Reqb_false, Reqb_true in H by lra. injection H as <-.
      destruct a as [a| | |]; try contradiction; unfold two_var; cbn [xmul xdiv].
      - cbn in HO. destruct B as [->|(Hs & _ & B)].
        + rewrite Reqb_true by ring. rewrite Rltb_true by lra. split; exact Logic.I.
        + rewrite Reqb_false by nra. apply B, HO.
      - rewrite Rltb_false by nra. split; exact Logic.I. }
    assert (Hml : (m < length l)%nat) by lia.
    assert (Q : 0 < INR (S m) / INR n < 1) by (rewrite N; apply (rate_range m l Hml)).
    destruct (Req_dec s 0) as [->|Ns].
    - split.
      + (* the law of the sample *)
        assert (G : forall z, (forall o, In o os -> 0 <= on_sample (S m) run (z :: l) o) /\ rsum (on_sample (S m) run (z :: l)) os = 1).
        { intros z. pose proof (samples_some (z :: l) (S m) ltac:(cbn; lia)) as SN.
          assert (K : 0 < INR (length (samples (S m) (z :: l)))) by (apply lt_0_INR; destruct (samples (S m) (z :: l)); [congruence | cbn; lia]). split.
          - intros o Ho. unfold on_sample. apply Rmult_le_pos; [|left; apply Rinv_0_lt_compat, K]. apply rsum_nonneg. intros u Hu. apply (HL u); [apply (samples_length _ _ _ Hu) | exact Ho].
          - unfold on_sample, Rdiv. rewrite rsum_scal_r, rsum_swap. rewrite (rsum_ext _ (fun _ => 1)); [rewrite rsum_const; field; lra|].
            intros u Hu. apply (HL u), (samples_length _ _ _ Hu). }
        destruct (G x) as [A1 A2]. destruct (G y) as [B1 B2]. split; [intros o Ho; split; [apply A1, Ho | apply B1, Ho] | split; assumption].
      + intros sv a r Hsv HO N1 H. rewrite (Hsv mm Ef), Hm in H. unfold wor_order in H. destruct (negb _); [discriminate|]. rewrite !Reqb_false in H by lra.
        destruct a as [a| | |]; try contradiction; [|injection H as <-; split; exact Logic.I].
        destruct (Reqb_spec a 1) as [->|]; [congruence|]. rewrite Reqb_true in H by reflexivity. discriminate.
    - assert (Hs : 0 < s) by (destruct (HR (x :: w) (x :: w) ltac:(cbn; lia) (RR x x w)) as [_ [Z|[Hs _]]]; [contradiction | exact Hs]).
      assert (HCl : forall u v, length u = S m -> replaces u v -> close (/ (2 * (s * s))) (mkExper O os (run u) (run v))).
      { intros u v Lu R. destruct (HR u v Lu R) as [_ [Z|(_ & B & _)]]; [contradiction | exact B]. }
      destruct (sample_valid os run m s HCl x y l Hml) as [V AC]. destruct (sample_valid os run m s HCl y x l Hml) as [V' AC'].
      split; [exact V|]. intros sv a r Hsv HO N1 H. rewrite (Hsv mm Ef), Hm in H. destruct a as [a| | |]; try contradiction.
      + cbn in HO. assert (Ha : 1 < a) by (destruct HO as [|<-]; [assumption | congruence]).
        destruct (order_bound _ s a r _ Q Hs Ha V AC) as (z & -> & B); [|exact H|].
        * intros k Hk. rewrite N. apply (sample_moment os run m s HCl x y l Hml k Hk).
        * destruct (order_bound _ s a (Fin z) _ Q Hs Ha V' AC') as (z' & [= <-] & B'); [|exact H|].
          -- intros k Hk. rewrite N. apply (sample_moment os run m s HCl y x l Hml k Hk).
          -- split; assumption.
      + unfold wor_order in H. destruct (negb _); [discriminate|]. rewrite !Reqb_false in H by lra. injection H as <-. split; exact Logic.I.
  Qed.
End Wor.
