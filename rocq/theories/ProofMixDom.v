(** Every query with a random sensitivity is dominated by the shifts of the class. *)
From Coq Require Import Lra.
From Verif Require Import Base XReal Exn TypesAdjacency SpecDP SpecMech SpecNoiseAcc SpecMixture ProofDP ProofPeak ProofShapeGauss ProofNormal ProofGdpConv ProofGdp ProofGdpSeq ProofMix ProofMixLaw.

Section Dom.
  Context (Phi : R -> R) (HPhi : normal_cdf Phi) (sigma : R) (Hs : 0 < sigma).
  Notation law := (law Phi sigma).
  Section Cells.
    Context (cuts : list R) (SC : StronglySorted Rlt cuts) (v : R).
    Definition mass (F : R -> R) (S : xr * xr -> bool) : R := rsum (fun c => at_end F (snd c) - at_end F (fst c)) (filter S (cells cuts)).
    Lemma mass_split F S : mass F S + mass F (fun c => negb (S c)) = 1.
    Proof.
      replace 1 with (rsum (fun c => at_end F (snd c) - at_end F (fst c)) (cells cuts)) by (rewrite (cells_telescope (at_end F)); cbn; ring).
      unfold mass. induction (cells cuts) as [|c l IH]; cbn [filter rsum]; [lra|]. destruct (S c); cbn [negb rsum]; lra.
    Qed.
    Lemma mass_range F S : is_cdf F -> 0 <= mass F S <= 1.
    Proof.
      intros C. assert (K : forall T, 0 <= mass F T).
      { intros T. apply rsum_nonneg. intros c I. apply filter_In in I as (I & _). pose proof (at_end_mono F C _ _ (cells_ordered _ SC _ I)). lra. }
      pose proof (K S). pose proof (K (fun c => negb (S c))). pose proof (mass_split F S). lra.
    Qed.
    Definition base (x : R) : R := law (x - v).
    Definition moved (d x : R) : R := law (x - v - d).
    Lemma moved_le d s S z : Rabs d <= s -> 0 < s ->
      mass (moved d) S <= Phi (z + s / sigma) + exp (- (s / sigma) * z - s / sigma * (s / sigma) / 2) * (mass base S - Phi z).
    Proof.
      intros Hd Hp. set (mu := s / sigma). assert (Hm : 0 < mu) by (apply Rdiv_lt_0_compat; assumption). set (b := exp (- mu * z - mu * mu / 2)).
      assert (T : thr mu 1 b = z). { unfold thr, b. replace (exp (- mu * z - mu * mu / 2) / 1) with (exp (- mu * z - mu * mu / 2)) by field. rewrite ln_exp. field. lra. }
      assert (Hd' : Rabs d / sigma <= mu) by (apply Rmult_le_compat_r; [apply Rlt_le, Rinv_0_lt_compat, Hs | exact Hd]).
      pose proof (query_hs Phi HPhi sigma v d mu 1 b cuts Hs Hd' Hm Rlt_0_1 (exp_pos _) SC) as Q. rewrite T in Q. unfold test in Q.
      assert (G : mass (moved d) S - b * mass base S <= hs (observe (fun x => Phi ((x - (v + d)) / sigma)) (fun x => Phi ((x - v) / sigma)) cuts) 1 b).
      { unfold hs, mass. cbn [outs prP prQ observe]. rewrite !rsum_filter, <- rsum_scal, <- rsum_minus. apply rsum_le. intros c _.
        assert (E1 : forall x, at_end (moved d) x = at_end (fun x => Phi ((x - (v + d)) / sigma)) x) by (intros [x| | |]; cbn; try reflexivity; unfold moved, ProofMixLaw.law; do 2 f_equal; ring).
        assert (E2 : forall x, at_end base x = at_end (fun x => Phi ((x - v) / sigma)) x) by (intros [x| | |]; reflexivity).
        rewrite (E1 (snd c)), (E1 (fst c)), (E2 (snd c)), (E2 (fst c)). destruct (S c).
        - eapply Rle_trans; [|apply pos_ge]. lra.
        - eapply Rle_trans; [|apply pos_nonneg]. lra. }
      fold b. lra.
    Qed.
    Lemma moved_at d s S z : Rabs d <= s -> mass base S = Phi z -> mass (moved d) S <= Phi (z + s / sigma).
    Proof.
      intros Hd E. pose proof (Rabs_pos d). destruct (Rle_lt_dec s 0) as [L|L].
      - assert (d = 0) by (destruct (Req_dec d 0) as [|N]; [assumption | pose proof (Rabs_pos_lt d N); lra]). assert (s = 0) by lra. subst d s.
        replace (0 / sigma) with 0 by (field; lra). rewrite Rplus_0_r, <- E. apply Req_le. unfold mass. apply rsum_ext. intros c _.
        assert (K : forall x, at_end (moved 0) x = at_end base x) by (intros [x| | |]; cbn; try reflexivity; unfold moved, base; f_equal; ring). rewrite !K. reflexivity.
      - pose proof (moved_le d s S z Hd L) as G. rewrite E in G. lra.
    Qed.
    Lemma moved_null d s S : Rabs d <= s -> mass base S = 0 -> mass (moved d) S <= 0.
    Proof.
      intros Hd E. pose proof (Rabs_pos d). destruct (Rle_lt_dec s 0) as [L|L].
      - assert (d = 0) by (destruct (Req_dec d 0) as [|N]; [assumption | pose proof (Rabs_pos_lt d N); lra]). subst d.
        apply Rle_trans with (mass base S); [|lra]. apply Req_le. unfold mass. apply rsum_ext. intros c _.
        assert (K : forall x, at_end (moved 0) x = at_end base x) by (intros [x| | |]; cbn; try reflexivity; unfold moved, base; f_equal; ring). rewrite !K. reflexivity.
      - apply small_le. intros e He. pose proof HPhi as ((B & _ & Lo & _) & _). destruct (Lo e He) as (x & Hx).
        pose proof (moved_le d s S (x - s / sigma) Hd L) as G. rewrite E in G. replace (x - s / sigma + s / sigma) with x in G by ring.
        pose proof (exp_pos (- (s / sigma) * (x - s / sigma) - s / sigma * (s / sigma) / 2)). pose proof (B (x - s / sigma)). nra.
    Qed.
  End Cells.

  Lemma phi_value a : 0 < a < 1 -> exists z, Phi z = a.
  Proof.
    intros Ha. pose proof HPhi as ((B & M & Lo & Up) & c & Hc & D). destruct (Lo a ltac:(lra)) as (x & Hx). destruct (Up (1 - a) ltac:(lra)) as (y & Hy).
    assert (x < y) by (destruct (Rlt_le_dec x y); [assumption | pose proof (M y x ltac:(assumption)); lra]).
    destruct (IVT (fun z => Phi z - a) x y) as (z & _ & E); try assumption; try lra; [|exists z; lra].
    apply continuity_minus; [|apply continuity_const; intros ? ?; reflexivity]. intros z. apply derivable_continuous_pt. exists (c * exp (- (z * z) / 2)). apply D.
  Qed.

  Context (comps : list (R * R)).
  Hypothesis ok : forall c, In c comps -> 0 <= snd c.
  Hypothesis total : rsum snd comps = 1.

  Definition zipped (ds : list R) : list (R * (R * R)) := combine ds comps.
  Lemma zipped_in ds : Forall2 (fun d c => Rabs d <= fst c) ds comps -> forall w, In w (zipped ds) -> Rabs (fst w) <= fst (snd w) /\ In (snd w) comps.
  Proof.
    unfold zipped. clear ok total. induction 1 as [|d c ds l H F IH]; [intros ? []|]. intros w [<-|I]; [split; [exact H | left; reflexivity]|]. destruct (IH w I). split; [assumption | right; assumption].
  Qed.
  Lemma zipped_sum ds (f : R * R -> R) : Forall2 (fun d c => Rabs d <= fst c) ds comps -> rsum (fun w => f (snd w)) (zipped ds) = rsum f comps.
  Proof. unfold zipped. clear ok total. induction 1 as [|d c ds l H F IH]; cbn [combine rsum]; [reflexivity|]. rewrite IH. reflexivity. Qed.
  Lemma mixed_zipped F ds x : Forall2 (fun d c => Rabs d <= fst c) ds comps -> mixed F (combine ds (map snd comps)) x = rsum (fun w => snd (snd w) * F (x - fst w)) (zipped ds).
  Proof. unfold zipped, mixed. clear ok total. induction 1 as [|d c ds l H FF IH]; cbn [combine map rsum fst snd]; [reflexivity|]. rewrite IH. reflexivity. Qed.

  Section Query.
    Context (v : R) (ds : list R) (cuts : list R) (FA : Forall2 (fun d c => Rabs d <= fst c) ds comps) (SC : StronglySorted Rlt cuts).
    Definition whole (x : R) : R := mixed law (combine ds (map snd comps)) (x - v).
    Lemma whole_end x : x <> NaN -> at_end whole x = rsum (fun w => snd (snd w) * at_end (moved v (fst w)) x) (zipped ds).
    Proof.
      intros N. destruct x as [x| | |]; cbn [at_end]; try congruence.
      - unfold whole. rewrite mixed_zipped by exact FA. reflexivity.
      - rewrite (rsum_ext _ (fun w => snd (snd w))) by (intros; ring). rewrite (zipped_sum ds snd FA). symmetry. exact total.
      - rewrite rsum_zero; [reflexivity|]. intros. ring.
    Qed.
    Lemma cell_not_nan c : In c (cells cuts) -> fst c <> NaN /\ snd c <> NaN.
    Proof. intros I. apply xleb_nan, (cells_ordered _ SC _ I). Qed.
    Lemma whole_mass S : mass cuts whole S = rsum (fun w => snd (snd w) * mass cuts (moved v (fst w)) S) (zipped ds).
    Proof.
      unfold mass. transitivity (rsum (fun c => rsum (fun w => snd (snd w) * (at_end (moved v (fst w)) (snd c) - at_end (moved v (fst w)) (fst c))) (zipped ds)) (filter S (cells cuts))).
      - apply rsum_ext. intros c I. apply filter_In in I as (I & _). destruct (cell_not_nan c I). rewrite !whole_end by assumption. rewrite <- rsum_minus. apply rsum_ext. intros. ring.
      - rewrite rsum_swap. apply rsum_ext. intros w _. rewrite rsum_scal. reflexivity.
    Qed.
    Lemma whole_cdf : is_cdf whole.
    Proof.
      assert (C : is_cdf (mixed law (combine ds (map snd comps)))).
      { apply mixed_cdf; [apply law_cdf; assumption | |].
        - intros w I. destruct w as [d p]. apply in_combine_r in I. apply in_map_iff in I as (c & <- & I). cbn [snd]. apply (ok c), I.
        - rewrite <- total. rewrite <- (zipped_sum ds snd FA). unfold zipped. clear -FA. induction FA as [|d c ds l H F IH]; cbn [combine map rsum snd]; [reflexivity|]. rewrite IH by exact F. reflexivity. }
      destruct C as (B & M & Lo & Up). unfold whole. repeat split; try apply B.
      - intros x y L. apply M. lra.
      - intros e He. destruct (Lo e He) as (x & Hx). exists (x + v). replace (x + v - v) with x by ring. exact Hx.
      - intros e He. destruct (Up e He) as (x & Hx). exists (x + v). replace (x + v - v) with x by ring. exact Hx.
    Qed.
    Lemma base_cdf : is_cdf (base v).
    Proof.
      destruct (law_cdf Phi HPhi sigma Hs) as (B & M & Lo & Up). unfold base. repeat split; try apply B.
      - intros x y L. apply M. lra.
      - intros e He. destruct (Lo e He) as (x & Hx). exists (x + v). replace (x + v - v) with x by ring. exact Hx.
      - intros e He. destruct (Up e He) as (x & Hx). exists (x + v). replace (x + v - v) with x by ring. exact Hx.
    Qed.
    Lemma hs_event P Q t : exists S, hs (observe P Q cuts) 1 t = mass cuts P S - t * mass cuts Q S.
    Proof.
      exists (fun c => Rltb 0 (1 * (at_end P (snd c) - at_end P (fst c)) - t * (at_end Q (snd c) - at_end Q (fst c)))).
      unfold hs, mass. rewrite !rsum_filter, <- rsum_scal, <- rsum_minus. apply rsum_ext. intros c _. cbn [prP prQ observe].
      match goal with |- pos ?z = _ => set (g := z) end. destruct (Rltb_spec 0 g) as [L|L].
      - rewrite pos_eq by lra. unfold g. ring.
      - rewrite pos_0 by lra. ring.
    Qed.
    Lemma sum_bound (f : R * (R * R) -> R) (g : R * R -> R) : (forall w, In w (zipped ds) -> f w <= g (snd w)) ->
      rsum (fun w => snd (snd w) * f w) (zipped ds) <= rsum (fun c => snd c * g c) comps.
    Proof.
      intros H. rewrite <- (zipped_sum ds (fun c => snd c * g c) FA). apply rsum_le. intros w I. apply Rmult_le_compat_l; [|apply H, I]. apply ok, (zipped_in ds FA w I).
    Qed.
    Lemma dom_forward t m : 0 <= t -> 0 <= m -> 1 - t <= m -> (forall x, rsum (fun c => snd c * law (x + fst c)) comps - t * law x <= m) ->
      hs (observe whole (base v) cuts) 1 t <= m.
    Proof.
      intros Ht H0 H1 H. destruct (hs_event whole (base v) t) as (S & ->).
      pose proof (mass_range cuts SC (base v) S base_cdf) as RB. pose proof (mass_range cuts SC whole S whole_cdf) as RW.
      destruct (Req_dec (mass cuts (base v) S) 0) as [E0|N0].
      { rewrite whole_mass, E0. assert (rsum (fun w => snd (snd w) * mass cuts (moved v (fst w)) S) (zipped ds) <= rsum (fun c => snd c * 0) comps); [|rewrite rsum_scal_r in *; lra].
        apply sum_bound. intros w I. apply (moved_null cuts SC v _ (fst (snd w))); [apply (zipped_in ds FA w I) | exact E0]. }
      destruct (Req_dec (mass cuts (base v) S) 1) as [E1|N1]; [rewrite E1; lra|].
      destruct (phi_value (mass cuts (base v) S) ltac:(lra)) as (z & Ez). specialize (H (z * sigma)). unfold ProofMixLaw.law in H at 2. replace (z * sigma / sigma) with z in H by (field; lra). rewrite Ez in H.
      eapply Rle_trans; [|exact H]. apply Rplus_le_compat_r. rewrite whole_mass. apply sum_bound. intros w I.
      unfold ProofMixLaw.law. replace ((z * sigma + fst (snd w)) / sigma) with (z + fst (snd w) / sigma) by (field; lra). apply (moved_at cuts SC v); [apply (zipped_in ds FA w I) | symmetry; exact Ez].
    Qed.
    Lemma dom_backward t m : 0 <= t -> 0 <= m -> 1 - t <= m -> (forall x, law x - t * rsum (fun c => snd c * law (x - fst c)) comps <= m) ->
      hs (observe (base v) whole cuts) 1 t <= m.
    Proof.
      intros Ht H0 H1 H. destruct (hs_event (base v) whole t) as (S & ->).
      pose proof (mass_range cuts SC (base v) S base_cdf) as RB. pose proof (mass_range cuts SC whole S whole_cdf) as RW. set (S' := fun c => negb (S c)).
      pose proof (mass_split cuts (base v) S) as SB. pose proof (mass_split cuts whole S) as SW. fold S' in SB, SW.
      destruct (Req_dec (mass cuts (base v) S) 0) as [E0|N0]; [rewrite E0; nra|].
      destruct (Req_dec (mass cuts (base v) S) 1) as [E1|N1].
      { assert (Z : mass cuts (base v) S' = 0) by lra. assert (mass cuts whole S' <= 0); [|nra]. rewrite whole_mass.
        assert (rsum (fun w => snd (snd w) * mass cuts (moved v (fst w)) S') (zipped ds) <= rsum (fun c => snd c * 0) comps); [|rewrite rsum_scal_r in *; lra].
        apply sum_bound. intros w I. apply (moved_null cuts SC v _ (fst (snd w))); [apply (zipped_in ds FA w I) | exact Z]. }
      destruct (phi_value (mass cuts (base v) S) ltac:(lra)) as (z & Ez). specialize (H (z * sigma)). unfold ProofMixLaw.law in H at 1. replace (z * sigma / sigma) with z in H by (field; lra). rewrite Ez in H.
      eapply Rle_trans; [|exact H]. apply Rplus_le_compat_l, Ropp_le_contravar, Rmult_le_compat_l; [exact Ht|].
      assert (K : mass cuts whole S' <= rsum (fun c => snd c * (1 - law (z * sigma - fst c))) comps).
      { rewrite whole_mass. apply sum_bound. intros w I. unfold ProofMixLaw.law. replace ((z * sigma - fst (snd w)) / sigma) with (- (- z + fst (snd w) / sigma)) by (field; lra).
        rewrite <- (normal_mirror Phi HPhi). apply (moved_at cuts SC v); [apply (zipped_in ds FA w I)|]. rewrite (normal_mirror Phi HPhi), Ropp_involutive. lra. }
      rewrite (rsum_ext _ (fun c => snd c - snd c * law (z * sigma - fst c))) in K by (intros; ring). rewrite rsum_minus, total in K. lra.
    Qed.
  End Query.

  Lemma dom_query E adj t m : mixture_query law comps E -> 0 <= t -> 0 <= m -> 1 - t <= m ->
    (forall x, mixture_upper adj law comps x - t * mixture_lower adj law comps x <= m) ->
    valid E /\ match adj with REMOVE => hs E 1 t | ADD => hs (swap E) 1 t end <= m.
  Proof.
    intros (v & ds & cuts & FA & SC & ->) Ht H0 H1 H. split; [apply observe_valid; [apply whole_cdf; assumption | apply base_cdf | exact SC]|]. destruct adj.
    - rewrite swap_observe. apply (dom_backward v ds cuts FA SC); assumption.
    - apply (dom_forward v ds cuts FA SC); try assumption. intros x. specialize (H x). cbn in H. unfold mixed in H. rewrite minus_shift_sum in H.
      rewrite (rsum_ext _ (fun c => snd c * law (x - - fst c))); [exact H|]. intros c _. do 2 f_equal. ring.
  Qed.
End Dom.
