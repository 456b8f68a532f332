(** Constructors of privacy loss distributions: from two probability mass functions. *)
From Coq Require Import Sorting.Permutation.
From Verif Require Import Base XReal Exn PyDict TypesRelation ModelCommon ModelPmf ModelPld ModelMake
  SpecDP SpecPmf SpecPld SpecMake ProofDP ProofDict ProofPmf ProofCompose ProofCompose2 ProofPld.

Lemma rsum_support {A} (f : A -> R) l1 l2 : NoDup l1 -> NoDup l2 ->
  (forall x, f x <> 0 -> (In x l1 <-> In x l2)) -> rsum f l1 = rsum f l2.
Proof.
  intros N1 N2 H.
  assert (E : forall l, rsum f l = rsum f (filter (fun x => negb (Reqb (f x) 0)) l)).
  { intros l. rewrite rsum_filter. apply rsum_ext. intros a _. destruct (Reqb_spec (f a) 0); cbn; lra. }
  rewrite (E l1), (E l2). apply rsum_perm, NoDup_Permutation; try (apply NoDup_filter; assumption).
  intros x. rewrite !filter_In. destruct (Reqb_spec (f x) 0); cbn; [intuition discriminate|].
  specialize (H x n). tauto.
Qed.

Lemma radd_sum d v p h :
  rsum (fun vp => snd vp * h (fst vp)) (radd d v p) = rsum (fun vp => snd vp * h (fst vp)) d + p * h v.
Proof.
  induction d as [|[v' p'] d IH]; cbn [radd rsum fst snd]; [lra|].
  destruct (Reqb_spec v' v) as [->|]; cbn [rsum fst snd]; [lra | rewrite IH; lra].
Qed.

Lemma radd_nonneg d v p : (forall vp, In vp d -> 0 <= snd vp) -> 0 <= p ->
  forall vp, In vp (radd d v p) -> 0 <= snd vp.
Proof.
  intros H Hp. induction d as [|[v' p'] d IH]; cbn [radd].
  - intros vp [<-|[]]. cbn. lra.
  - destruct (Reqb v' v).
    + intros vp [<-|Hin]; [cbn; specialize (H (v', p') (or_introl eq_refl)); cbn in H; lra|].
      apply H. right. assumption.
    + intros vp [<-|Hin]; [apply H; left; reflexivity|].
      apply IH; [|assumption]. intros q Hq. apply H. right. assumption.
Qed.

Section Two.
  Context {O : Type} (eqb : O -> O -> bool).
  Hypothesis eqb_ok : forall a b, eqb a b = true <-> a = b.

  Lemma eqb_refl o : eqb o o = true. Proof. apply eqb_ok. reflexivity. Qed.

  Lemma oget_In (d : odict O) o x : NoDup (map fst d) -> In (o, x) d -> oget eqb d o = x.
  Proof.
    induction d as [|[o' x'] d IH]; cbn [map oget fst]; intros ND; [intros []|].
    inversion ND as [|? ? N1 N2]; subst. intros [E|Hin].
    - injection E as -> ->. rewrite eqb_refl. reflexivity.
    - destruct (eqb o' o) eqn:E; [|auto]. apply eqb_ok in E. subst o'.
      exfalso. apply N1. apply in_map_iff. exists (o, x). auto.
  Qed.
  Lemma oget_notin (d : odict O) o : ~ In o (map fst d) -> oget eqb d o = None.
  Proof.
    induction d as [|[o' x'] d IH]; cbn [map oget fst]; [reflexivity|]. intros H.
    destruct (eqb o' o) eqn:E; [apply eqb_ok in E; exfalso; apply H; left; assumption|].
    apply IH. intros Hin. apply H. right. assumption.
  Qed.
  Lemma oget_some (d : odict O) o x : oget eqb d o = Some x -> In (o, Some x) d.
  Proof.
    induction d as [|[o' x'] d IH]; cbn [oget]; [discriminate|].
    destruct (eqb o' o) eqn:E; [|intros; right; auto].
    apply eqb_ok in E. subst. intros ->. left. reflexivity.
  Qed.

  Lemma prob_oget (d : odict O) o : NoDup (map fst d) -> prob_of eqb d o = lexp (oget eqb d o).
  Proof.
    unfold prob_of. induction d as [|[o' x'] d IH]; cbn [map oget fst snd rsum]; intros ND; [reflexivity|].
    inversion ND as [|? ? N1 N2]; subst. rewrite IH by assumption.
    destruct (eqb o' o) eqn:E; [|lra]. apply eqb_ok in E. subst o'.
    rewrite oget_notin by assumption. cbn. lra.
  Qed.

  Lemma lexp_nonneg x : 0 <= lexp x.
  Proof. destruct x; cbn; [apply exp_pos_nonneg | lra]. Qed.

  (** what the two loops compute *)
  Definition included (bound : logp) (x : logp) : bool := above_bound x bound.
  Definition kept (upper : odict O) (bound : logp) (h : R -> R) (ox : O * logp) : R :=
    match snd ox, oget eqb upper (fst ox) with
    | Some lq, Some lp => if above_bound (Some lp) bound then exp lp * h (lp - lq) else 0
    | _, _ => 0
    end.
  Definition dropped (upper : odict O) (bound : logp) (ox : O * logp) : R :=
    match snd ox, oget eqb upper (fst ox) with
    | Some lq, Some lp => if above_bound (Some lp) bound then 0 else exp lp
    | _, _ => 0
    end.
  Definition only_upper (lower : odict O) (ox : O * logp) : R :=
    match oget eqb lower (fst ox) with None => lexp (snd ox) | Some _ => 0 end.

  Lemma inf_loop_sum lower upper : inf_loop eqb lower upper = rsum (only_upper lower) upper.
  Proof.
    unfold inf_loop. assert (K : forall l a,
      fold_left (fun inf (ox : O * logp) => match oget eqb lower (fst ox) with
                | None => inf + lexp (snd ox) | Some _ => inf end) l a = a + rsum (only_upper lower) l).
    { induction l as [|ox l IH]; intros a; cbn [fold_left rsum]; [lra|]. rewrite IH.
      unfold only_upper at 2. destruct (oget eqb lower (fst ox)); lra. }
    rewrite K. lra.
  Qed.

  Lemma loss_loop_sum upper bound pess l : forall pm inf pm' inf',
    (forall vp, In vp pm -> 0 <= snd vp) ->
    fold_left (loss_step eqb upper bound pess) l (pm, inf) = (pm', inf') ->
    (forall h, rsum (fun vp => snd vp * h (fst vp)) pm' =
               rsum (fun vp => snd vp * h (fst vp)) pm + rsum (kept upper bound h) l) /\
    inf' = inf + (if pess then rsum (dropped upper bound) l else 0) /\
    (forall vp, In vp pm' -> 0 <= snd vp).
  Proof.
    induction l as [|[o x] l IH]; intros pm inf pm' inf' Hn; cbn [fold_left rsum].
    - intros E. injection E as <- <-. split; [intros; lra|]. split; [destruct pess; lra | assumption].
    - unfold loss_step at 2. cbn [fst snd]. unfold kept at 1, dropped at 1. cbn [fst snd].
      destruct x as [lq|]; [destruct (oget eqb upper o) as [lp|] eqn:Eu; [destruct (above_bound (Some lp) bound)|]|].
      + intros E. destruct (IH _ _ _ _ (radd_nonneg pm (lp - lq) (exp lp) Hn (exp_pos_nonneg lp)) E) as (A & B & C).
        split; [|split; [|assumption]].
        * intros h. rewrite A, radd_sum. lra.
        * rewrite B. destruct pess; lra.
      + intros E. destruct (IH _ _ _ _ Hn E) as (A & B & C). split; [|split; [|assumption]].
        * intros h. rewrite A. lra.
        * rewrite B. destruct pess; lra.
      + intros E. destruct (IH _ _ _ _ Hn E) as (A & B & C). split; [|split; [|assumption]].
        * intros h. rewrite A. lra.
        * rewrite B. destruct pess; lra.
      + intros E. destruct (IH _ _ _ _ Hn E) as (A & B & C). split; [|split; [|assumption]].
        * intros h. rewrite A. lra.
        * rewrite B. destruct pess; lra.
  Qed.

  Lemma fold_dadd_sum (f : R -> Z) l : forall c, NoDup (keys c) ->
    (forall g, dsum (fold_left (fun d vp => dadd d (f (fst vp)) (snd vp)) l c) g =
      dsum c g + rsum (fun vp => snd vp * g (f (fst vp))) l) /\
    NoDup (keys (fold_left (fun d (vp : R * R) => dadd d (f (fst vp)) (snd vp)) l c)).
  Proof.
    induction l as [|vp l IH]; intros c ND; cbn [fold_left rsum]; [split; [intros; lra | assumption]|].
    destruct (IH (dadd c (f (fst vp)) (snd vp)) (NoDup_dadd _ _ _ ND)) as [E N].
    split; [|assumption]. intros g. rewrite E, dsum_dadd by assumption. lra.
  Qed.

  Lemma rounded_ok lower upper pess disc bound inf d :
    rounded_from_pmfs eqb lower upper pess disc bound = Ok (inf, d) ->
    (forall g, dsum d g = rsum (kept upper bound (fun v => g (round_fn pess (v / disc)))) lower) /\
    inf = rsum (only_upper lower) upper + (if pess then rsum (dropped upper bound) lower else 0) /\
    NoDup (keys d) /\ nonneg_dict d /\ 0 <= inf.
  Proof.
    unfold rounded_from_pmfs.
    destruct (fold_left (loss_step eqb upper bound pess) lower ([], inf_loop eqb lower upper)) as [pm inf0] eqn:E.
    assert (HN : forall vp : R * R, In vp [] -> 0 <= snd vp) by (intros ? []).
    destruct (loss_loop_sum _ _ _ _ _ _ _ _ HN E) as (A & B & C).
    unfold round_pmf. destruct (_ && _)%bool; [discriminate|]. cbn [bind]. intros H. injection H as <- <-.
    destruct (fold_dadd_sum (fun v => round_fn pess (v / disc)) pm [] (NoDup_nil _)) as [S N].
    split; [|split; [|split; [|split]]].
    - intros g. rewrite S. unfold dsum at 1. cbn [rsum]. rewrite (A (fun v => g (round_fn pess (v / disc)))).
      cbn [rsum]. lra.
    - rewrite B, inf_loop_sum. reflexivity.
    - assumption.
    - intros k. rewrite <- dsum_ind by assumption. rewrite S. unfold dsum at 1. cbn [rsum].
      assert (0 <= rsum (fun vp => snd vp * ind k (round_fn pess (fst vp / disc))) pm); [|lra].
      apply rsum_nonneg. intros vp Hv. apply Rmult_le_pos; [apply C; assumption|].
      unfold ind. destruct (_ =? _)%Z; lra.
    - rewrite B, inf_loop_sum.
      assert (0 <= rsum (only_upper lower) upper).
      { apply rsum_nonneg. intros ox _. unfold only_upper. destruct (oget eqb lower (fst ox)); [lra | apply lexp_nonneg]. }
      assert (0 <= rsum (dropped upper bound) lower).
      { apply rsum_nonneg. intros ox _. unfold dropped. destruct (snd ox); [|lra].
        destruct (oget eqb upper (fst ox)); [|lra]. destruct (above_bound _ _); [lra | apply exp_pos_nonneg]. }
      destruct pess; lra.
  Qed.

  Definition both (upper lower : odict O) (eps : R) (o : O) : R :=
    match oget eqb upper o, oget eqb lower o with
    | Some lp, Some lq => pos (exp lp - exp eps * exp lq)
    | _, _ => 0
    end.

  Lemma rest_zero upper lower (f : O -> R) : (forall o, ~ In o (map fst upper) -> f o = 0) ->
    rsum f (outs (two_exper eqb upper lower)) = rsum f (map fst upper).
  Proof.
    intros H. cbn [outs two_exper]. rewrite rsum_app.
    rewrite (rsum_zero f (filter _ _)); [lra|]. intros o Ho. apply filter_In in Ho. destruct Ho as [_ Ho].
    apply H. intros Hin. apply negb_true_iff in Ho.
    assert (existsb (fun o' => eqb o' o) (map fst upper) = true); [|congruence].
    apply existsb_exists. exists o. split; [assumption | apply eqb_refl].
  Qed.

  Lemma hockey_two upper lower eps : NoDup (map fst upper) -> NoDup (map fst lower) ->
    hockey_stick (two_exper eqb upper lower) eps =
    rsum (only_upper lower) upper + rsum (fun ox => both upper lower eps (fst ox)) lower.
  Proof.
    intros N1 N2. unfold hockey_stick.
    etransitivity.
    { apply (rest_zero upper lower (fun o => pos (prob_of eqb upper o - exp eps * prob_of eqb lower o))).
        intros o Ho. rewrite !prob_oget by assumption. rewrite (oget_notin upper) by assumption. apply pos_0.
        pose proof (lexp_nonneg (oget eqb lower o)). pose proof (exp_pos eps). cbn. nra. }
    transitivity (rsum (only_upper lower) upper + rsum (both upper lower eps) (map fst upper)).
    - rewrite !rsum_map, <- rsum_plus. apply rsum_ext. intros [o x] Hin. cbn [fst].
      rewrite !prob_oget by assumption. unfold only_upper, both. cbn [fst snd].
      rewrite (oget_In upper o x N1 Hin). pose proof (exp_pos eps).
      destruct (oget eqb lower o) as [lq|]; destruct x as [lp|]; cbn [lexp].
      + lra.
      + rewrite pos_0; [lra|]. pose proof (exp_pos lq). nra.
      + rewrite pos_eq; [lra|]. pose proof (exp_pos lp). lra.
      + rewrite pos_0; lra.
    - f_equal. rewrite <- (rsum_map fst (both upper lower eps) lower).
      apply rsum_support; auto. intros o Ho. unfold both in Ho.
      destruct (oget eqb upper o) as [lp|] eqn:E1; [|congruence].
      destruct (oget eqb lower o) as [lq|] eqn:E2; [|congruence].
      apply oget_some in E1. apply oget_some in E2.
      split; intros _; apply in_map_iff; [exists (o, Some lq) | exists (o, Some lp)]; auto.
  Qed.

  Lemma two_valid upper lower : distribution upper -> distribution lower ->
    valid (two_exper eqb upper lower).
  Proof.
    intros [N1 S1] [N2 S2].
    assert (T : forall d : odict O, NoDup (map fst d) ->
      rsum (prob_of eqb d) (map fst d) = rsum (fun ox => lexp (snd ox)) d).
    { intros d N. rewrite rsum_map. apply rsum_ext. intros [o x] Hin. cbn [fst snd].
      rewrite prob_oget, (oget_In d o x N Hin) by assumption. reflexivity. }
    split; [|split].
    - intros o _. cbn [prP prQ two_exper]. rewrite !prob_oget by assumption.
      split; apply lexp_nonneg.
    - cbn [prP two_exper]. etransitivity; [apply (rest_zero upper lower (prob_of eqb upper))|rewrite T; auto].
      intros o Ho. rewrite prob_oget, oget_notin by assumption. reflexivity.
    - change (rsum (prob_of eqb lower) (map fst upper ++
        filter (fun o => negb (existsb (fun o' => eqb o' o) (map fst upper))) (map fst lower)) = 1).
      rewrite rsum_app.
      rewrite (rsum_support (prob_of eqb lower) (map fst upper)
        (filter (fun o => existsb (fun o' => eqb o' o) (map fst upper)) (map fst lower)));
        [|assumption | apply NoDup_filter; assumption |].
      + rewrite !rsum_filter, <- rsum_plus, <- S2, <- T by assumption. apply rsum_ext. intros o _.
        destruct (existsb _ _); cbn [negb]; lra.
      + intros o Ho. rewrite filter_In, existsb_exists. rewrite prob_oget in Ho by assumption. split.
        * intros Hu. destruct (oget eqb lower o) as [lq|] eqn:E; [|cbn in Ho; congruence].
          apply oget_some in E. split; [apply in_map_iff; exists (o, Some lq); auto|].
          exists o. split; [assumption | apply eqb_refl].
        * intros [_ (o' & H1 & H2)]. apply eqb_ok in H2. subst. assumption.
  Qed.

  (** rounding *)
  Lemma both_loss upper lower eps (ox : O * logp) lp lq : NoDup (map fst lower) -> In ox lower ->
    snd ox = Some lq -> oget eqb upper (fst ox) = Some lp ->
    both upper lower eps (fst ox) = exp lp * pos (1 - exp (eps - (lp - lq))).
  Proof.
    intros N Hin Ex Eu. unfold both. rewrite Eu. destruct ox as [o x]. cbn [fst snd] in *. subst x.
    rewrite (oget_In lower o (Some lq) N Hin). rewrite <- pos_scal by apply exp_pos_nonneg. f_equal.
    rewrite Rmult_minus_distr_l, <- !exp_plus.
    replace (lp + (eps - (lp - lq))) with (eps + lq) by lra. lra.
  Qed.

  Definition shift_gain (disc e : R) (v : R) (pess : bool) : R := hgain disc e (round_fn pess (v / disc)).

  Lemma round_bounds (pess : bool) disc v : 0 < disc ->
    if pess then v <= IZR (round_fn true (v / disc)) * disc < v + disc
    else v - disc < IZR (round_fn false (v / disc)) * disc <= v.
  Proof.
    intros Hd. assert (Ev : v / disc * disc = v) by (field; lra).
    destruct pess; cbn [round_fn].
    - pose proof (Rceil_spec (v / disc)). split; nra.
    - pose proof (Rfloor_spec (v / disc)). split; nra.
  Qed.

  Lemma gain_le disc e k e' v : e' - v <= e - IZR k * disc ->
    hgain disc e k <= pos (1 - exp (e' - v)).
  Proof. intros H. apply pos_le. apply exp_le in H. lra. Qed.
  Lemma gain_ge disc e k e' v : e - IZR k * disc <= e' - v ->
    pos (1 - exp (e' - v)) <= hgain disc e k.
  Proof. intros H. apply pos_le. apply exp_le in H. lra. Qed.

  Lemma kept_lower upper lower bound disc eps : 0 < disc -> NoDup (map fst lower) ->
    rsum (fun ox => both upper lower eps (fst ox)) lower <=
    rsum (kept upper bound (fun v => hgain disc eps (round_fn true (v / disc)))) lower +
    rsum (dropped upper bound) lower.
  Proof.
    intros Hd N. rewrite <- rsum_plus. apply rsum_le. intros ox Hin. cbv beta. unfold kept, dropped.
    destruct (snd ox) as [lq|] eqn:Ex.
    2:{ unfold both. destruct ox as [o x]. cbn [fst snd] in *. subst x.
        rewrite (oget_In lower o None N Hin). destruct (oget eqb upper o); lra. }
    destruct (oget eqb upper (fst ox)) as [lp|] eqn:Eu; [|unfold both; rewrite Eu; lra].
    rewrite (both_loss upper lower eps ox lp lq N Hin Ex Eu). pose proof (exp_pos lp).
    destruct (above_bound (Some lp) bound).
    - rewrite Rplus_0_r. apply Rmult_le_compat_l; [lra|]. apply gain_ge.
      pose proof (round_bounds true disc (lp - lq) Hd). lra.
    - rewrite Rplus_0_l. assert (pos (1 - exp (eps - (lp - lq))) <= 1); [|nra].
      apply pos_le_bound; [lra|]. pose proof (exp_pos (eps - (lp - lq))). lra.
  Qed.

  Lemma kept_upper (pess : bool) upper lower bound disc eps eps' : 0 < disc -> NoDup (map fst lower) ->
    (if pess then eps' <= eps - disc else eps' <= eps) ->
    rsum (kept upper bound (fun v => hgain disc eps (round_fn pess (v / disc)))) lower <=
    rsum (fun ox => both upper lower eps' (fst ox)) lower.
  Proof.
    intros Hd N He. apply rsum_le. intros ox Hin. cbv beta. unfold kept.
    assert (B0 : 0 <= both upper lower eps' (fst ox)).
    { unfold both. destruct (oget eqb upper (fst ox)), (oget eqb lower (fst ox)); try lra. apply pos_nonneg. }
    destruct (snd ox) as [lq|] eqn:Ex; [|assumption].
    destruct (oget eqb upper (fst ox)) as [lp|] eqn:Eu; [|assumption].
    destruct (above_bound (Some lp) bound); [|assumption].
    rewrite (both_loss upper lower eps' ox lp lq N Hin Ex Eu). pose proof (exp_pos lp).
    apply Rmult_le_compat_l; [lra|]. apply gain_le.
    pose proof (round_bounds pess disc (lp - lq) Hd) as RB. destruct pess; lra.
  Qed.

  Lemma kept_lower_opt upper lower disc eps : 0 < disc -> NoDup (map fst lower) ->
    rsum (fun ox => both upper lower (eps + disc) (fst ox)) lower <=
    rsum (kept upper None (fun v => hgain disc eps (round_fn false (v / disc)))) lower.
  Proof.
    intros Hd N. apply rsum_le. intros ox Hin. cbv beta. unfold kept.
    destruct (snd ox) as [lq|] eqn:Ex.
    2:{ unfold both. destruct ox as [o x]. cbn [fst snd] in *. subst x.
        rewrite (oget_In lower o None N Hin). destruct (oget eqb upper o); lra. }
    destruct (oget eqb upper (fst ox)) as [lp|] eqn:Eu; [|unfold both; rewrite Eu; lra].
    rewrite (both_loss upper lower _ ox lp lq N Hin Ex Eu). pose proof (exp_pos lp). cbn [above_bound].
    apply Rmult_le_compat_l; [lra|]. apply gain_ge.
    pose proof (round_bounds false disc (lp - lq) Hd) as RB. cbn [round_fn] in RB. cbn [round_fn]. lra.
  Qed.

  Lemma dropped_le upper lower b : rsum (dropped upper (Some b)) lower <= INR (length lower) * exp b.
  Proof.
    rewrite <- rsum_const. apply rsum_le. intros ox _. unfold dropped. pose proof (exp_pos b).
    destruct (snd ox); [|lra]. destruct (oget eqb upper (fst ox)) as [lp|]; [|lra]. cbn [above_bound].
    destruct (Rltb_spec b lp); [lra | apply exp_le; lra].
  Qed.
  Lemma dropped_none upper lower : rsum (dropped upper None) lower = 0.
  Proof.
    apply rsum_zero. intros ox _. unfold dropped. destruct (snd ox); [|reflexivity].
    destruct (oget eqb upper (fst ox)); reflexivity.
  Qed.
End Two.

Lemma create_pmf_ok d disc inf pess p : 0 < disc -> 0 <= inf -> NoDup (keys d) -> nonneg_dict d ->
  create_pmf d disc inf pess = Ok p ->
  wf p /\ (forall g, psum p g = dsum d g) /\ infinity_mass p = inf /\ discretization p = disc /\
  pessimistic_estimate p = pess.
Proof.
  intros Hd Hi ND NN H.
  assert (W : wf (mkPmf disc inf pess (Sparse d))).
  { split; [assumption|]. split; [assumption|]. split; [exact NN | exact ND]. }
  unfold create_pmf in H. destruct (_ <=? _)%Z.
  - injection H as <-. split; [assumption|]. repeat split.
  - pose proof (to_dense_ok (mkPmf disc inf pess (Sparse d)) p W) as T. unfold to_dense in T.
    cbn [pmf_body discretization infinity_mass pessimistic_estimate] in T.
    destruct (T H) as (A & B & C & D & E & _). split; [assumption|]. split; [exact B|]. auto.
Qed.

Section Two2.
  Context {O : Type} (eqb : O -> O -> bool).
  Hypothesis eqb_ok : forall a b, eqb a b = true <-> a = b.

  (** one direction of from_two_pmfs *)
  Lemma one_direction lower upper pess disc bound inf d p : 0 < disc ->
    NoDup (map fst upper) -> NoDup (map fst lower) ->
    rounded_from_pmfs eqb lower upper pess disc bound = Ok (inf, d) ->
    create_pmf d disc inf pess = Ok p ->
    wf p /\ pessimistic_estimate p = pess /\ discretization p = disc /\
    infinity_mass p = rsum (only_upper eqb lower) upper + (if pess then rsum (dropped eqb upper bound) lower else 0) /\
    forall eps, pmf_delta p (Fin eps) =
      rsum (kept eqb upper bound (fun v => hgain disc eps (round_fn pess (v / disc)))) lower + infinity_mass p.
  Proof.
    intros Hd N1 N2 HR HC. destruct (rounded_ok eqb _ _ _ _ _ _ _ HR) as (S & I & ND & NN & Hi).
    destruct (create_pmf_ok _ _ _ _ _ Hd Hi ND NN HC) as (W & PS & IM & DI & PE).
    split; [assumption|]. split; [assumption|]. split; [assumption|]. split; [congruence|].
    intros eps. rewrite pmf_delta_psum by assumption. unfold ptest. rewrite PS, S, DI. lra.
  Qed.

  Lemma pess_direction lower upper disc bound inf d p eps : 0 < disc ->
    NoDup (map fst upper) -> NoDup (map fst lower) ->
    rounded_from_pmfs eqb lower upper true disc bound = Ok (inf, d) ->
    create_pmf d disc inf true = Ok p ->
    hockey_stick (two_exper eqb upper lower) eps <= pmf_delta p (Fin eps) <=
    hockey_stick (two_exper eqb upper lower) (eps - disc) +
    match bound with Some b => INR (length lower) * exp b | None => 0 end.
  Proof.
    intros Hd N1 N2 HR HC. destruct (one_direction _ _ _ _ _ _ _ _ Hd N1 N2 HR HC) as (W & _ & _ & I & E).
    rewrite E, I, !hockey_two by assumption. split.
    - pose proof (kept_lower eqb eqb_ok upper lower bound disc eps Hd N2). lra.
    - pose proof (kept_upper eqb eqb_ok true upper lower bound disc eps (eps - disc) Hd N2 ltac:(cbn; lra)).
      destruct bound as [b|].
      + pose proof (dropped_le eqb upper lower b). lra.
      + rewrite dropped_none. lra.
  Qed.

  Lemma opt_direction lower upper disc bound inf d p eps : 0 < disc ->
    NoDup (map fst upper) -> NoDup (map fst lower) ->
    rounded_from_pmfs eqb lower upper false disc bound = Ok (inf, d) ->
    create_pmf d disc inf false = Ok p ->
    pmf_delta p (Fin eps) <= hockey_stick (two_exper eqb upper lower) eps /\
    (bound = None -> hockey_stick (two_exper eqb upper lower) (eps + disc) <= pmf_delta p (Fin eps)).
  Proof.
    intros Hd N1 N2 HR HC. destruct (one_direction _ _ _ _ _ _ _ _ Hd N1 N2 HR HC) as (W & _ & _ & I & E).
    rewrite E, I, !hockey_two by assumption. split.
    - pose proof (kept_upper eqb eqb_ok false upper lower bound disc eps eps Hd N2 ltac:(cbn; lra)). lra.
    - intros ->. pose proof (kept_lower_opt eqb eqb_ok upper lower disc eps Hd N2). lra.
  Qed.

  Lemma hockey_two_swap upper lower eps : NoDup (map fst upper) -> NoDup (map fst lower) ->
    hockey_stick (swap (two_exper eqb upper lower)) eps = hockey_stick (two_exper eqb lower upper) eps.
  Proof.
    intros N1 N2. unfold hockey_stick. cbn [swap outs prP prQ].
    apply rsum_support.
    (* both outcome lists are duplicate free and have the same elements *)
    all: cycle 2.
    - intros o Ho. cbn [two_exper prP prQ] in Ho. cbn [two_exper outs].
      rewrite !in_app_iff, !filter_In. 
      assert (K : forall l : list O, negb (existsb (fun o' => eqb o' o) l) = true <-> ~ In o l).
      { intros l. rewrite negb_true_iff, <- not_true_iff_false, existsb_exists. split; intros H Hin; apply H.
        - exists o. split; [assumption | apply eqb_ok; reflexivity].
        - destruct Hin as (o' & A & B). apply eqb_ok in B. subst. assumption. }
      rewrite !K.
      assert (forall l : list O, In o l \/ ~ In o l).
      { intros l. destruct (existsb (fun o' => eqb o' o) l) eqn:B.
        - left. apply existsb_exists in B. destruct B as (o' & A & B). apply eqb_ok in B. subst. assumption.
        - right. apply K. rewrite B. reflexivity. }
      destruct (H (map fst upper)), (H (map fst lower)); tauto.
    - cbn [two_exper outs]. clear -N1 N2 eqb_ok. revert N1. generalize (map fst upper) as l. intros l N1.
      assert (D : forall o, In o l -> ~ In o (filter (fun o => negb (existsb (fun o' => eqb o' o) l)) (map fst lower))).
      { intros o Hl Hf. apply filter_In in Hf. destruct Hf as [_ Hf]. apply negb_true_iff in Hf.
        rewrite <- not_true_iff_false in Hf. apply Hf, existsb_exists. exists o.
        split; [assumption | apply eqb_ok; reflexivity]. }
      revert D. generalize (NoDup_filter (fun o => negb (existsb (fun o' => eqb o' o) l)) N2).
      generalize (filter (fun o => negb (existsb (fun o' => eqb o' o) l)) (map fst lower)) as l2.
      intros l2 ND2 D. induction N1 as [|x l Hx N1 IH]; cbn [app]; [assumption|].
      constructor.
      + rewrite in_app_iff. intros [H|H]; [contradiction|]. apply (D x); [left; reflexivity | assumption].
      + apply IH. intros o Ho. apply D. right. assumption.
    - cbn [two_exper outs]. clear -N1 N2 eqb_ok. revert N2. generalize (map fst lower) as l. intros l N2.
      assert (D : forall o, In o l -> ~ In o (filter (fun o => negb (existsb (fun o' => eqb o' o) l)) (map fst upper))).
      { intros o Hl Hf. apply filter_In in Hf. destruct Hf as [_ Hf]. apply negb_true_iff in Hf.
        rewrite <- not_true_iff_false in Hf. apply Hf, existsb_exists. exists o.
        split; [assumption | apply eqb_ok; reflexivity]. }
      revert D. generalize (NoDup_filter (fun o => negb (existsb (fun o' => eqb o' o) l)) N1).
      generalize (filter (fun o => negb (existsb (fun o' => eqb o' o) l)) (map fst upper)) as l2.
      intros l2 ND2 D. induction N2 as [|x l Hx N2 IH]; cbn [app]; [assumption|].
      constructor.
      + rewrite in_app_iff. intros [H|H]; [contradiction|]. apply (D x); [left; reflexivity | assumption].
      + apply IH. intros o Ho. apply D. right. assumption.
  Qed.
End Two2.
