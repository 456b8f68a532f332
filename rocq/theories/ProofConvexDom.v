(** What is dominated by a Gaussian query has at most its convex divergences. *)
From Verif Require Import Base XReal TypesAdjacency SpecDP SpecMech SpecRun ProofDP ProofShape ProofPeak ProofCuts ProofRun ProofNormal ProofGdpConv ProofGdp ProofGdpSeq ProofWorGauss.
Local Open Scope R_scope.
Local Arguments Rltb : simpl never.
Local Arguments Rleb : simpl never.
Local Arguments Reqb : simpl never.

(** ** Gluing *)
Definition glue {A} (t : R) (F G : R -> A) (x : R) : A := if Rleb x t then F x else G x.
Lemma glue_le {A} t (F G : R -> A) x : x <= t -> glue t F G x = F x.
Proof. intros H. unfold glue. rewrite Rleb_true by exact H. reflexivity. Qed.
Lemma glue_gt {A} t (F G : R -> A) x : t < x -> glue t F G x = G x.
Proof. intros H. unfold glue. rewrite Rleb_false by exact H. reflexivity. Qed.
Lemma deriv_local (F G : R -> R) x l d : 0 < d -> (forall y, Rabs (y - x) < d -> F y = G y) -> derivable_pt_lim F x l -> derivable_pt_lim G x l.
Proof.
  intros Hd E D e He. destruct (D e He) as [[del Hdel] K]. assert (Hm : 0 < Rmin d del) by (apply Rmin_glb_lt; assumption).
  exists (mkposreal _ Hm). cbn [pos]. intros h Nh Hh. cbn in Hh. pose proof (Rmin_l d del). pose proof (Rmin_r d del).
  rewrite <- !E; [apply K; [exact Nh | cbn; lra] | rewrite Rminus_diag_eq, Rabs_R0 by reflexivity; lra | replace (x + h - x) with h by ring; lra].
Qed.
Lemma glue_deriv (F G f g : R -> R) t : (forall x, derivable_pt_lim F x (f x)) -> (forall x, derivable_pt_lim G x (g x)) -> F t = G t -> f t = g t ->
  forall x, derivable_pt_lim (glue t F G) x (glue t f g x).
Proof.
  intros DF DG E1 E2 x. destruct (Rtotal_order x t) as [L|[->|L]].
  - rewrite (glue_le t f g) by lra. apply (deriv_local F _ x _ (t - x)); [lra | | apply DF]. intros y Hy. symmetry. apply glue_le. apply Rabs_def2 in Hy. lra.
  - rewrite glue_le by lra. intros e He. destruct (DF t e He) as [d1 K1]. destruct (DG t e He) as [d2 K2].
    assert (Hm : 0 < Rmin d1 d2) by (apply Rmin_glb_lt; [apply d1 | apply d2]). exists (mkposreal _ Hm). intros h Nh Hh. cbn in Hh. pose proof (Rmin_l d1 d2). pose proof (Rmin_r d1 d2).
    rewrite (glue_le t F G t) by lra. destruct (Rle_lt_dec (t + h) t) as [L|L].
    + rewrite glue_le by lra. apply K1; [exact Nh | lra].
    + rewrite glue_gt, E1, E2 by lra. apply K2; [exact Nh | lra].
  - rewrite (glue_gt t f g) by lra. apply (deriv_local G _ x _ (x - t)); [lra | | apply DG]. intros y Hy. symmetry. apply glue_gt. apply Rabs_def2 in Hy. lra.
Qed.
Lemma prim_glue (F G f g : R -> R) t p q : prim F f p -> prim G g q -> f t = g t ->
  prim (glue t F (fun x => F t + (G x - G t))) (glue t f g) (F t + (q - G t)).
Proof.
  intros (DF & LF & _) (DG & _ & UG) E. split; [|split].
  - apply glue_deriv; [exact DF| | lra | exact E]. intros x. replace (g x) with (0 + (g x - 0)) by ring.
    apply (derivable_pt_lim_plus (fun _ => F t) (fun x => G x - G t)); [apply derivable_pt_lim_const|].
    apply (derivable_pt_lim_minus G (fun _ => G t)); [apply DG | apply derivable_pt_lim_const].
  - intros e He. destruct (LF e He) as [m M]. exists (Rmin m t). intros x Hx. pose proof (Rmin_l m t). pose proof (Rmin_r m t). rewrite glue_le by lra. apply M. lra.
  - intros e He. destruct (UG e He) as [m M]. exists (Rmax m (t + 1)). intros x Hx. pose proof (Rmax_l m (t + 1)). pose proof (Rmax_r m (t + 1)). rewrite glue_gt by lra.
    replace (F t + (G x - G t) - (F t + (q - G t))) with (G x - q) by ring. apply M. lra.
Qed.

(** ** Tangents *)
Section Envelope.
  Context (g d : R -> R) (T : forall x y, 0 <= x -> 0 <= y -> x <> y -> g x + d x * (y - x) < g y).
  Definition tan (x y : R) : R := g x + d x * (y - x).
  Definition hinges (l : list (R * R)) (y : R) : R := rsum (fun h => fst h * Base.pos (y - snd h)) l.
  Lemma slope_lt x y : 0 <= x -> x < y -> d x < d y.
  Proof. intros Hx L. pose proof (T x y Hx ltac:(lra) ltac:(lra)). pose proof (T y x ltac:(lra) Hx ltac:(lra)). nra. Qed.
  Lemma hinges_zero l y : Forall (fun h => y <= snd h) l -> hinges l y = 0.
  Proof.
    intros F. unfold hinges. apply rsum_zero. intros h Ih. rewrite Forall_forall in F. specialize (F h Ih). unfold Base.pos. rewrite Rmax_left by lra. ring.
  Qed.
  Lemma envelope l : forall x, 0 <= x -> StronglySorted Rlt (x :: l) ->
    exists hs, Forall (fun h => 0 < fst h /\ x < snd h) hs /\ (forall y, 0 <= y -> tan x y + hinges hs y <= g y) /\ (forall y, In y (x :: l) -> g y = tan x y + hinges hs y).
  Proof.
    induction l as [|x1 l IH]; intros x Hx S; apply StronglySorted_inv in S; destruct S as [S F].
    - exists []. split; [constructor|]. split.
      + intros y Hy. unfold hinges, tan. cbn [rsum]. destruct (Req_dec x y) as [<-|N]; [lra|]. pose proof (T x y Hx Hy N). lra.
      + intros y [<-|[]]. unfold hinges, tan. cbn [rsum]. ring.
    - inversion F as [|? ? L1 F']; subst. destruct (IH x1 ltac:(lra) S) as (hs & Fh & Up & Eq).
      pose proof (slope_lt x x1 Hx L1) as SL. pose proof (T x x1 Hx ltac:(lra) ltac:(lra)) as T1. pose proof (T x1 x ltac:(lra) Hx ltac:(lra)) as T2.
      set (b := (g x - d x * x - g x1 + d x1 * x1) / (d x1 - d x)).
      assert (Eb : (d x1 - d x) * b = g x - d x * x - g x1 + d x1 * x1) by (unfold b; field; lra).
      assert (B1 : x < b) by nra. assert (B2 : b < x1) by nra.
      assert (Flip : forall y, tan x y + (d x1 - d x) * (y - b) = tan x1 y) by (intros y; unfold tan; nra).
      exists ((d x1 - d x, b) :: hs).
      assert (V : forall y, hinges ((d x1 - d x, b) :: hs) y = (d x1 - d x) * Base.pos (y - b) + hinges hs y) by reflexivity.
      assert (Lo : forall y, y <= b -> tan x y + hinges ((d x1 - d x, b) :: hs) y = tan x y).
      { intros y Hy. rewrite V, hinges_zero; [unfold Base.pos; rewrite Rmax_left by lra; ring|]. eapply Forall_impl; [|exact Fh]. cbn. intros h [_ H]. lra. }
      assert (Hi : forall y, b <= y -> tan x y + hinges ((d x1 - d x, b) :: hs) y = tan x1 y + hinges hs y).
      { intros y Hy. rewrite V. unfold Base.pos. rewrite Rmax_right by lra. rewrite <- Flip. ring. }
      split; [|split].
      + constructor; [cbn; lra|]. eapply Forall_impl; [|exact Fh]. cbn. intros h [H1 H2]. lra.
      + intros y Hy. destruct (Rle_lt_dec y b) as [H|H].
        * rewrite Lo by exact H. unfold tan. destruct (Req_dec x y) as [<-|N]; [lra|]. pose proof (T x y Hx Hy N). lra.
        * rewrite Hi by lra. apply Up, Hy.
      + intros y [<-|I]; [rewrite Lo by lra; unfold tan; ring|].
        assert (x1 <= y) by (destruct I as [<-|I]; [lra|]; apply StronglySorted_inv in S; destruct S as [_ S2]; rewrite Forall_forall in S2; specialize (S2 y I); lra).
        rewrite Hi by lra. apply Eq, I.
  Qed.
End Envelope.

(** ** Domination *)
Section Dominated.
  Context (Phi : R -> R) (HPhi : normal_cdf Phi) (c : R) (Hc : 0 < c) (D : forall x, derivable_pt_lim Phi x (c * ProofNormal.bell x)).
  Definition lik (mu z : R) : R := exp (- mu * z - mu * mu / 2).
  Lemma phi_prim : prim Phi (fun z => c * ProofNormal.bell z) 1.
  Proof. apply cdf_prim; [apply HPhi | exact D]. Qed.
  Lemma phi_shift_prim k : prim (fun z => Phi (z + k)) (fun z => c * ProofNormal.bell (z + k)) 1.
  Proof.
    destruct phi_prim as (_ & L & U). split; [intros x; apply (shift_deriv Phi c D)|]. split; intros e He.
    - destruct (L e He) as [m M]. exists (m - k). intros x Hx. apply M. lra.
    - destruct (U e He) as [m M]. exists (m - k). intros x Hx. apply M. lra.
  Qed.
  Lemma lik_prim mu : prim (fun z => Phi (z + mu)) (fun z => c * ProofNormal.bell z * lik mu z) 1.
  Proof.
    eapply prim_ext; [| |apply (phi_shift_prim mu)]; intros z; [reflexivity|]. cbn beta. rewrite bell_shift. unfold lik. ring.
  Qed.
  Lemma const_prim (k : R) : prim (fun _ => 0) (fun _ => 0) 0.
  Proof.
    split; [intros x; apply derivable_pt_lim_const|]. split; intros e He; exists k; intros x _; rewrite ?Rminus_0_r, Rabs_R0; lra.
  Qed.
  Lemma hinge_integral mu b : 0 < mu -> 0 < b ->
    integral_is (fun z => c * ProofNormal.bell z * Base.pos (lik mu z - b)) (test Phi mu 1 b (thr mu 1 b)).
  Proof.
    intros Hm Hb. set (t := thr mu 1 b).
    assert (Et : lik mu t = b) by (pose proof (thr_eq mu 1 b Hm ltac:(lra) Hb) as E; rewrite Rmult_1_l in E; exact E).
    assert (PT : prim (test Phi mu 1 b) (fun z => c * ProofNormal.bell z * (lik mu z - b)) (1 - b)).
    { eapply prim_ext; [| |replace (1 - b) with (1 - b * 1) by ring; apply (prim_minus _ _ _ _ _ _ (lik_prim mu) (prim_scal b _ _ _ phi_prim))]; intros z; unfold test; cbn beta; ring. }
    pose proof (prim_glue _ _ _ _ t _ _ PT (const_prim 0)) as G. cbn beta in G. rewrite Et, Rminus_diag_eq, Rmult_0_r in G by reflexivity. specialize (G eq_refl).
    replace (test Phi mu 1 b t + (0 - 0)) with (test Phi mu 1 b t) in G by ring.
    apply prim_integral in G. eapply integral_ext; [|exact G]. intros z. unfold Base.pos. destruct (Rle_lt_dec z t) as [L|L].
    - rewrite glue_le by exact L. rewrite Rmax_right; [reflexivity|]. assert (lik mu t <= lik mu z); [|lra]. unfold lik. apply exp_le. nra.
    - rewrite glue_gt by exact L. rewrite Rmax_left; [ring|]. assert (lik mu z <= lik mu t); [|lra]. unfold lik. apply exp_le. nra.
  Qed.
  Lemma dominated mu E (g d h : R -> R) K : 0 < mu -> gdom Phi mu E ->
    (forall x y, 0 <= x -> 0 <= y -> x <> y -> g x + d x * (y - x) < g y) ->
    (forall o, In o (outs E) -> prQ E o = 0 -> prP E o = 0) ->
    integral_is (fun z => c * ProofNormal.bell z * h z) K -> (forall z, g (lik mu z) <= h z) ->
    rsum (fun o => if Reqb (prQ E o) 0 then 0 else prQ E o * g (prP E o / prQ E o)) (outs E) <= K.
  Proof.
    intros Hm ((N & SP & SQ) & G) T AC HK Hgh.
    set (ls := ins_all (map (fun o => prP E o / prQ E o) (filter (fun o => negb (Reqb (prQ E o) 0)) (outs E))) []).
    assert (SL : StronglySorted Rlt ls) by (apply ins_all_sorted; constructor).
    assert (IL : forall y, In y ls <-> exists o, In o (outs E) /\ prQ E o <> 0 /\ y = prP E o / prQ E o).
    { intros y. unfold ls. rewrite ins_all_In, in_map_iff. split.
      - intros [(o & <- & Io)|[]]. apply filter_In in Io. destruct Io as [Io Ho]. exists o. split; [exact Io|]. split; [|reflexivity]. destruct (Reqb_spec (prQ E o) 0); [discriminate | assumption].
      - intros (o & Io & Ho & ->). left. exists o. split; [reflexivity|]. apply filter_In. split; [exact Io|]. rewrite Reqb_false by exact Ho. reflexivity. }
    destruct ls as [|x l] eqn:El.
    { exfalso. assert (Z : rsum (prQ E) (outs E) = 0); [|lra]. apply rsum_zero. intros o Io. destruct (Req_dec (prQ E o) 0) as [Ho|Ho]; [exact Ho|]. exfalso. apply (proj2 (IL (prP E o / prQ E o))). exists o. auto. }
    assert (Hx : 0 <= x).
    { destruct (proj1 (IL x) (or_introl eq_refl)) as (o & Io & Ho & ->). destruct (N o Io). apply Rmult_le_pos; [assumption | left; apply Rinv_0_lt_compat; lra]. }
    destruct (envelope g d T l x Hx SL) as (hg & F & Up & Eq).
    assert (TH : rsum (fun o => if Reqb (prQ E o) 0 then 0 else prQ E o * g (prP E o / prQ E o)) (outs E) = tan g d x 1 + rsum (fun w => fst w * ProofDP.hs E 1 (snd w)) hg).
    { rewrite (rsum_ext _ (fun o => (g x * prQ E o + d x * (prP E o - x * prQ E o)) + rsum (fun w => fst w * Base.pos (1 * prP E o - snd w * prQ E o)) hg)).
      - rewrite rsum_plus. f_equal.
        + rewrite (rsum_ext _ (fun o => (g x - d x * x) * prQ E o + d x * prP E o)) by (intros; ring). rewrite rsum_plus, !rsum_scal, SP, SQ. unfold tan. ring.
        + rewrite rsum_swap. apply rsum_ext. intros w _. rewrite rsum_scal. reflexivity.
      - intros o Io. destruct (N o Io) as [N1 N2]. destruct (Reqb_spec (prQ E o) 0) as [Z|NZ].
        + rewrite Z, (AC o Io Z). rewrite rsum_zero; [ring|]. intros w _. replace (1 * 0 - snd w * 0) with 0 by ring. unfold Base.pos. rewrite Rmax_left by lra. ring.
        + assert (PQ : 0 < prQ E o) by lra. rewrite (Eq (prP E o / prQ E o)) by (apply IL; exists o; auto). unfold tan, hinges. rewrite Rmult_plus_distr_l. f_equal; [field; lra|].
          rewrite <- rsum_scal. apply rsum_ext. intros w _. unfold Base.pos. rewrite <- Rmult_assoc, (Rmult_comm (prQ E o)), Rmult_assoc. f_equal.
          rewrite <- RmaxRmult by lra. rewrite Rmult_0_r. f_equal. field. lra. }
    rewrite TH. apply Rle_trans with (tan g d x 1 + rsum (fun w => fst w * test Phi mu 1 (snd w) (thr mu 1 (snd w))) hg).
    { apply Rplus_le_compat_l, rsum_le. intros w Iw. rewrite Forall_forall in F. destruct (F w Iw) as [F1 F2]. apply Rmult_le_compat_l; [lra|]. apply G; lra. }
    assert (I : integral_is (fun z => c * ProofNormal.bell z * (tan g d x (lik mu z) + hinges hg (lik mu z))) (tan g d x 1 + rsum (fun w => fst w * test Phi mu 1 (snd w) (thr mu 1 (snd w))) hg)).
    { apply (integral_ext (fun z => (((g x - d x * x) * (c * ProofNormal.bell z) + d x * (c * ProofNormal.bell z * lik mu z)) + rsum (fun w => fst w * (c * ProofNormal.bell z * Base.pos (lik mu z - snd w))) hg))).
      - intros z. unfold tan, hinges. rewrite Rmult_plus_distr_l, <- rsum_scal. f_equal; [ring|]. apply rsum_ext. intros; ring.
      - apply integral_plus.
        + unfold tan. replace (g x + d x * (1 - x)) with ((g x - d x * x) * 1 + d x * 1) by ring. apply prim_integral with (G := fun z => (g x - d x * x) * Phi z + d x * Phi (z + mu)).
          apply prim_plus; apply prim_scal; [apply phi_prim | apply lik_prim].
        + apply (integral_rsum (fun w z => fst w * (c * ProofNormal.bell z * Base.pos (lik mu z - snd w)))). intros w Iw. rewrite Forall_forall in F. destruct (F w Iw) as [F1 F2].
          destruct (hinge_integral mu (snd w) Hm ltac:(lra)) as (GG & HG). exists (fun z => fst w * GG z). apply (prim_scal (fst w) GG _ _ HG). }
    pose proof (integral_le _ _ _ _ 1 0 I HK) as R1. rewrite Rmult_1_l in R1. apply R1. intros z. rewrite Rplus_0_r, Rmult_1_l.
    apply Rmult_le_compat_l; [apply Rmult_le_pos; [lra | left; apply exp_pos]|]. eapply Rle_trans; [apply Up; left; apply exp_pos | apply Hgh].
  Qed.
End Dominated.
