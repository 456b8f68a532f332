(** Poisson-sampled Gaussian queries: both directions of the Renyi divergence. *)
From Coq Require Import FunctionalExtensionality.
From Verif Require Import Base XReal Exn TypesEvent TypesRelation SpecEvent SpecDP SpecMake SpecMech SpecRenyi SpecRdp SpecNoiseAcc SpecAccPld SpecAccountant SpecRdpEvent.
From Verif Require Import ModelRdp ProofDP ProofRenyi ProofPeak ProofShape ProofShapeGauss ProofPoisson ProofObserve ProofGaussRdp ProofRefine ProofCuts ProofLedger ProofAccMono ProofRdpAtom.
Local Arguments Rltb : simpl never.
Local Arguments Rleb : simpl never.
Local Arguments Reqb : simpl never.

Lemma refines_silent E : refines (seq_exper silent (fun _ => E)) E.
Proof.
  exists (fun o => [existT (fun _ : outcome silent => outcome E) tt o]). split.
  - intros f. cbn [outs seq_exper silent flat_map]. rewrite app_nil_r, rsum_map. apply rsum_ext. intros; cbn [rsum]; rewrite Rplus_0_r; reflexivity.
  - intros o Ho. cbn. split; [lra|]. split; [lra|]. intros o' [<-|[]]. rewrite app_nil_r. apply in_map, Ho.
Qed.

Section Joint.
  Context (Phi : R -> R) (HPhi : normal_cdf Phi).
  Notation gq := (gaussian_query Phi).
  Notation inv2 := (fun t => / (t * t)).

  Lemma joint_bounded sigmas E0 a : Forall (fun t => 0 < t) sigmas -> joint (map gq sigmas) E0 -> 1 <= a ->
    valid E0 /\ rdp_bounded E0 (Fin a) (Fin (a * rsum inv2 sigmas / 2)).
  Proof.
    intros F J Ha. remember (map gq sigmas) as Cs eqn:EC. revert sigmas EC F. induction J as [|Cs E C E' J IH HC]; intros sigmas EC F.
    - destruct sigmas; [|discriminate]. split; [apply valid_silent|]. cbn [rsum fold_right map]. replace (a * 0 / 2) with 0 by field. apply silent_bounded. exact Ha.
    - symmetry in EC. apply map_eq_app in EC. destruct EC as (s1 & s2 & -> & E1 & E2). destruct s2 as [|t [|]]; try discriminate. injection E2 as E2.
      apply Forall_app in F. destruct F as [F1 F2]. inversion_clear F2 as [|? ? Ht _]. destruct (IH s1 (eq_sym E1) F1) as [V B]. subst C.
      destruct (gauss_bounded Phi HPhi t Ht E' a HC Ha) as [V' B']. split; [apply valid_seq; auto|].
      rewrite rsum_app. replace (Fin (a * (rsum inv2 s1 + rsum inv2 [t]) / 2)) with (xadd (Fin (a * rsum inv2 s1 / 2)) (Fin (a / (2 * (t * t))))).
      + apply rdp_seq_x; auto.
      + cbn [xadd rsum fold_right map]. f_equal. field. lra.
  Qed.
  Lemma query_symmetric t E : 0 < t -> gq t E -> exists E', gq t E' /\ refines E' E /\ symmetric_exper E'.
  Proof.
    intros Ht (s & Hs & v & d & cuts & K1 & K2 & Hd & HS & ->).
    set (F := fun x => normal_law Phi t (x / s)). set (P := sampled 1 (add_noise F v) (add_noise F (v + d))). set (Q := add_noise F v).
    destruct (symmetric_refinement P Q (2 * v + d) cuts) as (l' & HS' & R & S); [|assumption|].
    - intros x. unfold P, Q, sampled, add_noise, F, normal_law. rewrite (normal_mirror Phi HPhi ((2 * v + d - x - (v + d)) / s / t)).
      replace (- ((2 * v + d - x - (v + d)) / s / t)) with ((x - v) / s / t) by (field; lra). ring.
    - exists (observe P Q l'). split; [|split; assumption]. exists s. split; [assumption|]. exists v, d, l'. auto.
  Qed.
  Lemma joint_symmetric sigmas E0 : Forall (fun t => 0 < t) sigmas -> joint (map gq sigmas) E0 ->
    exists E', joint (map gq sigmas) E' /\ refines E' E0 /\ symmetric_exper E'.
  Proof.
    intros F J. remember (map gq sigmas) as Cs eqn:EC. revert sigmas EC F. induction J as [|Cs E C E' J IH HC]; intros sigmas EC F.
    - exists silent. split; [constructor|]. split; [apply refines_refl | apply symmetric_silent].
    - symmetry in EC. apply map_eq_app in EC. destruct EC as (s1 & s2 & -> & E1 & E2). destruct s2 as [|t [|]]; try discriminate. injection E2 as E2.
      apply Forall_app in F. destruct F as [F1 F2]. inversion_clear F2 as [|? ? Ht _]. destruct (IH s1 (eq_sym E1) F1) as (G & JG & RG & SG). subst C.
      destruct (query_symmetric t E' Ht HC) as (H & QH & RH & SH). exists (seq_exper G (fun _ => H)).
      split; [constructor; assumption|]. split; [apply refines_seq; assumption | apply symmetric_seq; assumption].
  Qed.

  (** What the sampled part is: a function of queries with effective noise [s]. *)
  Definition sampled_noise (s : R) (E0 : exper) : Prop :=
    valid E0 /\ (s = 0 \/ 0 < s /\ exists sigmas E', Forall (fun t => 0 < t) sigmas /\ / (s * s) = rsum inv2 sigmas /\
      joint (map gq sigmas) E' /\ symmetric_exper E' /\ refines E' E0).
  Lemma sampled_of e E0 : sample_of Phi e E0 -> exists m s, effective_noise e = Ok (EffNum m) /\ nval m = Fin s /\ sampled_noise s E0.
  Proof.
    intros [(x & sigma & -> & Hx & N)|[T J]].
    - exists x, sigma. split; [reflexivity|]. split; [assumption|]. destruct N as [[? _]|[_ [[-> V]|[Hs H]]]]; [lra | split; [assumption | left; reflexivity]|].
      destruct (gauss_bounded Phi HPhi sigma Hs E0 1 H ltac:(lra)) as [V _]. split; [assumption|]. right. split; [assumption|].
      destruct (query_symmetric sigma E0 Hs H) as (E' & Q & R & S). exists [sigma], (seq_exper silent (fun _ => E')).
      split; [repeat constructor; assumption|]. split; [cbn; lra|]. split; [apply (joint_snoc []); [constructor | assumption]|].
      split; [apply symmetric_seq; [apply symmetric_silent | assumption]|]. eapply refines_trans; [apply refines_silent | assumption].
    - destruct (gaussian_eff e T) as (s & Ef & Hs & Sum). exists (PyFloat s), s. split; [assumption|]. split; [reflexivity|].
      assert (M : map (fun a => gq (sigma_of a)) (atoms e) = map gq (map sigma_of (atoms e))) by (rewrite map_map; reflexivity). rewrite M in J.
      assert (F : Forall (fun t => 0 < t) (map sigma_of (atoms e))).
      { apply Forall_forall. intros t. rewrite in_map_iff. intros (a & <- & I). clear J M Sum Ef Hs s. revert T a I.
        induction e as [ | | | p k | sg | sg | e c IH | es IH | q e IH | a b e IH | a b e IH | sg l | e m sh IH | sg a b ] using event_ind'; intros T at0 I; try contradiction.
        - destruct I as [<-|[]]. destruct sg; try contradiction. exact T.
        - destruct T as [_ T]. cbn [atoms] in I. apply (IH T). clear -I. induction (Z.to_nat c) as [|n IHn]; cbn in I; [contradiction|]. apply in_app_iff in I. tauto.
        - destruct T as [_ T]. cbn [atoms] in I. apply in_flat_map in I. destruct I as (x & Ix & I). revert T.
          induction IH as [|y l Hy _ IHl]; [contradiction|]. intros [T1 T2]. destruct Ix as [->|Ix]; [apply Hy; assumption | apply IHl; assumption]. }
      split; [apply (joint_bounded _ _ 1 F J); lra|]. right. split; [assumption|].
      destruct (joint_symmetric _ _ F J) as (E' & J' & R & S). exists (map sigma_of (atoms e)), E'. rewrite rsum_map. auto.
  Qed.

  Lemma mix_both E' E0 q a r : 1 < a -> 0 <= q <= 1 -> valid E' -> absolutely_continuous E' -> absolutely_continuous (swap E') -> symmetric_exper E' ->
    refines E' E0 -> valid E0 -> renyi_bounded (poisson_mix q E') (Fin a) (Fin r) -> rdp_bounded (poisson_mix q E0) (Fin a) (Fin r).
  Proof.
    intros Ha Hq V' AC AS S R V [ACm [_ B]].
    pose proof (mix_valid q E' Hq V') as VM'. pose proof (mix_valid q E0 Hq V) as VM. pose proof (refines_mix q _ _ R) as RM.
    apply (renyi_moment_le _ _ _ VM' ACm Ha) in B.
    destruct (mix_reverse q E' a Ha Hq V' AC AS S) as [AR MR].
    assert (P1 : forall o, In o (outs (poisson_mix q E')) -> 0 <= prP (poisson_mix q E') o /\ 0 <= prQ (poisson_mix q E') o) by apply VM'.
    assert (P2 : forall o, In o (outs (swap (poisson_mix q E'))) -> 0 <= prP (swap (poisson_mix q E')) o /\ 0 <= prQ (swap (poisson_mix q E')) o).
    { intros o Ho. destruct (P1 o Ho). split; assumption. }
    destruct (refines_moment _ _ a Ha P1 ACm RM) as [A1 M1]. destruct (refines_moment _ _ a Ha P2 AR (refines_swap _ _ RM)) as [A2 M2].
    split; (split; [assumption|]); (split; [lra|]); apply renyi_moment_le; try assumption; try (apply valid_swap; assumption); lra.
  Qed.
  Lemma mix_one E : poisson_mix 1 E = E.
  Proof. destruct E as [O os P Q]. unfold poisson_mix. cbn. f_equal. apply functional_extensionality. intros o. ring. Qed.
  Lemma mix_zero E : valid E -> no_leak (poisson_mix 0 E).
  Proof. intros V. split; [apply mix_valid; [lra | assumption]|]. intros o _. cbn. ring. Qed.
  Lemma refines_bounded E' E a r : valid E' -> valid E -> refines E' E -> 1 < a -> rdp_bounded E' (Fin a) (Fin r) -> rdp_bounded E (Fin a) (Fin r).
  Proof.
    intros V' V R Ha [[A1 [_ B1]] [A2 [_ B2]]]. pose proof (valid_swap _ V') as VS'. pose proof (valid_swap _ V) as VS.
    apply (renyi_moment_le _ _ _ V' A1 Ha) in B1. apply (renyi_moment_le _ _ _ VS' A2 Ha) in B2.
    assert (P2 : forall o, In o (outs (swap E')) -> 0 <= prP (swap E') o /\ 0 <= prQ (swap E') o) by apply VS'.
    destruct (refines_moment E' E a Ha (proj1 V') A1 R) as [C1 M1]. destruct (refines_moment _ _ a Ha P2 A2 (refines_swap _ _ R)) as [C2 M2].
    split; (split; [assumption|]); (split; [lra|]); apply renyi_moment_le; try assumption; lra.
  Qed.

  Context (frac : R -> xr -> xr -> xr).
  Lemma poisson_bounded q s E0 a : 0 <= q <= 1 -> sampled_noise s E0 -> order_ok a -> a <> Fin 1 ->
    (forall x, a = Fin x -> is_integer x = false -> 0 < q < 1 -> frac_sound Phi frac q x) ->
    rdp_bounded (poisson_mix q E0) a (poisson_order frac q (Fin s) a).
  Proof.
    intros Hq (V & N) Ha N1 HF. unfold poisson_order.
    destruct (Reqb_spec q 0) as [->|Q0]; [apply no_leak_bounded; [apply mix_zero, V | assumption]|].
    destruct a as [a| | |]; try contradiction; [|split; exact Logic.I]. cbn [isinf orb xeqb]. cbn in Ha. assert (A1 : 1 < a) by (destruct Ha as [|<-]; [assumption | congruence]).
    destruct N as [->|(Hs & sigmas & E' & F & Sum & J & S & R)]; [rewrite Reqb_true by reflexivity; split; exact Logic.I|].
    rewrite Reqb_false by lra. assert (S2 : 0 < s * s) by (apply Rmult_lt_0_compat; assumption).
    assert (JB : forall b, 1 <= b -> valid E' /\ rdp_bounded E' (Fin b) (Fin (b / (2 * (s * s))))).
    { intros b Hb. replace (b / (2 * (s * s))) with (b * rsum inv2 sigmas / 2) by (rewrite <- Sum; field; lra). apply joint_bounded; assumption. }
    destruct (JB 1 ltac:(lra)) as [V' [[AC _] [AS _]]].
    destruct (Reqb_spec q 1) as [->|Q1].
    - rewrite mix_one. unfold two_var. cbn [xmul xdiv]. rewrite Reqb_false by lra. destruct (JB a ltac:(lra)) as [_ B]. eapply refines_bounded; eassumption.
    - unfold log_a, xsub. cbn [xneg xadd]. destruct (is_integer a) eqn:I.
      + unfold is_integer in I. destruct (Reqb_spec a (IZR (Rfloor a))) as [Ea|]; [|discriminate].
        set (n := Z.to_nat (Rfloor a)). assert (En : a = INR n).
        { unfold n. rewrite INR_IZR_INZ, Z2Nat.id; [assumption|]. apply le_IZR. rewrite <- Ea. lra. }
        assert (Hn : (2 <= n)%nat) by (apply INR_lt; rewrite En in A1; destruct n as [|[|n]]; cbn in A1; try lra; rewrite !S_INR in *; cbn; pose proof (pos_INR n); lra).
        pose proof (poisson_value frac q s n Hq Hs Hn) as PV.
        assert (PV2 := PV). unfold rdp_poisson_gaussian in PV2. rewrite (Rleb_true 0 q), (Rleb_true q 1) in PV2 by lra. cbn [andb negb xltb map] in PV2.
        rewrite Rltb_false in PV2 by lra. injection PV2 as PV2. unfold poisson_order in PV2. rewrite (Reqb_false q 0), (Reqb_false q 1) in PV2 by assumption.
        cbn [isinf orb xeqb] in PV2. rewrite Reqb_false in PV2 by lra. unfold log_a, xsub in PV2. cbn [xneg xadd] in PV2. rewrite <- En in PV2.
        unfold is_integer in PV2. rewrite <- Ea, Reqb_true in PV2 by reflexivity. rewrite PV2.
        eapply mix_both; try eassumption. rewrite En. eapply (mix_sound frac q s n); try eassumption; try lra. intros i Hi. apply JB. apply (le_INR 1). lia.
      + specialize (HF a eq_refl I ltac:(lra) sigmas s E' F Hs Sum J). destruct (frac q (Fin s) (Fin a)) as [x| | |]; try contradiction; cbn [xdiv].
        * rewrite Reqb_false by lra. eapply mix_both; try eassumption. split; [apply mix_ac, AC|]. split; [lra|].
          apply renyi_moment_le; [apply mix_valid; assumption | apply mix_ac, AC | assumption|]. eapply Rle_trans; [exact HF|]. right. f_equal. field. lra.
        * rewrite Rltb_false by lra. split; exact Logic.I.
  Qed.
End Joint.
