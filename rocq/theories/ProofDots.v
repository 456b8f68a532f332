(** Connect-the-dots constructions. *)
From Coq Require Import Sorting.Sorted.
From Verif Require Import Base XReal Exn PyDict TypesRelation ModelCommon ModelPmf ModelPld ModelMake
  SpecDP SpecPmf SpecPld SpecMake ProofDP ProofDict ProofPmf ProofCompose ProofCompose2 ProofPld
  ProofMake ProofTwo ProofParams.

Section Dots.
  Variable disc : R.
  Hypothesis Hd : 0 < disc.
  Definition xx (z : Z) : R := exp (IZR z * disc).
  Lemma xx_pos z : 0 < xx z. Proof. apply exp_pos. Qed.
  Lemma xx_lt z1 z2 : (z1 < z2)%Z -> xx z1 < xx z2.
  Proof. intros H. apply exp_increasing. apply IZR_lt in H. nra. Qed.

  (** the probabilities before clipping at zero *)
  Definition gap (z0 z1 : Z) : R := IZR (z1 - z0) * disc.
  Fixpoint dots (a : R) (l : list (Z * R)) : list R :=
    match l with
    | [] => []
    | (z0, d0) :: l' =>
        match l' with
        | [] => [a + 0]
        | (z1, d1) :: _ =>
            (a + (d1 - d0) / expm1 (gap z0 z1)) :: dots ((d1 - d0) / expm1 (- gap z0 z1)) l'
        end
    end.
  Fixpoint grid (l : list (Z * R)) : Prop :=
    match l with
    | (z0, d0) :: l' =>
        match l' with
        | (z1, d1) :: _ => (z0 < z1)%Z /\ d1 <= d0 /\ grid l'
        | [] => True
        end
    | [] => True
    end.

  Lemma gap_right z0 z1 : (z0 < z1)%Z -> expm1 (gap z0 z1) = (xx z1 - xx z0) / xx z0.
  Proof.
    intros H. unfold expm1, gap, xx. rewrite minus_IZR, Rmult_minus_distr_r, exp_minus. field.
    pose proof (exp_pos (IZR z0 * disc)). lra.
  Qed.
  Lemma gap_left z0 z1 : (z0 < z1)%Z -> expm1 (- gap z0 z1) = - (xx z1 - xx z0) / xx z1.
  Proof.
    intros H. unfold expm1, gap, xx. rewrite minus_IZR, Rmult_minus_distr_r, Ropp_minus_distr, exp_minus. field.
    pose proof (exp_pos (IZR z1 * disc)). lra.
  Qed.

  (** expectation of the gain, with the probabilities mapped by [f] *)
  Fixpoint T (f : R -> R) (a : R) (l : list (Z * R)) (t : R) : R :=
    match l with
    | [] => 0
    | (z0, d0) :: l' =>
        match l' with
        | [] => f (a + 0) * pos (1 - t / xx z0) + d0
        | (z1, d1) :: _ =>
            f (a + (d1 - d0) / expm1 (gap z0 z1)) * pos (1 - t / xx z0) +
            T f ((d1 - d0) / expm1 (- gap z0 z1)) l' t
        end
    end.

  Lemma T_cons f a z0 d0 z1 d1 l t : T f a ((z0, d0) :: (z1, d1) :: l) t =
    f (a + (d1 - d0) / expm1 (gap z0 z1)) * pos (1 - t / xx z0) +
    T f ((d1 - d0) / expm1 (- gap z0 z1)) ((z1, d1) :: l) t.
  Proof. reflexivity. Qed.
  Lemma dots_cons a z0 d0 z1 d1 l : dots a ((z0, d0) :: (z1, d1) :: l) =
    (a + (d1 - d0) / expm1 (gap z0 z1)) :: dots ((d1 - d0) / expm1 (- gap z0 z1)) ((z1, d1) :: l).
  Proof. reflexivity. Qed.

  Lemma T_sum f a l t : l <> [] ->
    rsum (fun kv => snd kv * pos (1 - t / xx (fst kv))) (combine (map fst l) (map f (dots a l))) +
    last (map snd l) 0 = T f a l t.
  Proof.
    revert a. induction l as [|[z0 d0] l IH]; intros a Hl; [congruence|].
    destruct l as [|[z1 d1] l].
    - cbn. lra.
    - rewrite T_cons, <- IH, dots_cons by discriminate.
      generalize (dots ((d1 - d0) / expm1 (- gap z0 z1)) ((z1, d1) :: l)). intros ds.
      cbn [map fst last snd combine rsum]. lra.
  Qed.

  Lemma T_le f g a l t : (forall x, f x <= g x) -> T f a l t <= T g a l t.
  Proof.
    intros H. revert a. induction l as [|[z0 d0] l IH]; intros a; [cbn; lra|].
    destruct l as [|[z1 d1] l].
    - cbn [T]. pose proof (pos_nonneg (1 - t / xx z0)). specialize (H (a + 0)). nra.
    - rewrite !T_cons. pose proof (pos_nonneg (1 - t / xx z0)).
      specialize (H (a + (d1 - d0) / expm1 (gap z0 z1))). specialize (IH ((d1 - d0) / expm1 (- gap z0 z1))).
      nra.
  Qed.

  Lemma pos_below t z : t <= xx z -> pos (1 - t / xx z) = 1 - t / xx z.
  Proof.
    intros H. apply pos_eq. pose proof (xx_pos z). apply (Rmult_le_reg_r (xx z)); [lra|].
    replace ((1 - t / xx z) * xx z) with (xx z - t) by (field; lra). lra.
  Qed.
  Lemma pos_above t z : xx z <= t -> pos (1 - t / xx z) = 0.
  Proof.
    intros H. apply pos_0. pose proof (xx_pos z). apply (Rmult_le_reg_r (xx z)); [lra|].
    replace ((1 - t / xx z) * xx z) with (xx z - t) by (field; lra). lra.
  Qed.

  Lemma T_left l : forall a z0 d0 t, grid ((z0, d0) :: l) -> t <= xx z0 ->
    T (fun x => x) a ((z0, d0) :: l) t = d0 + a * (1 - t / xx z0).
  Proof.
    induction l as [|[z1 d1] l IH]; intros a z0 d0 t G Ht.
    - cbn [T]. rewrite pos_below by assumption. lra.
    - destruct G as (L & _ & G).
      pose proof (xx_lt _ _ L). pose proof (xx_pos z0).
      assert (IH' := IH ((d1 - d0) / expm1 (- gap z0 z1)) z1 d1 t G ltac:(lra)).
      rewrite T_cons, IH', pos_below, gap_right, gap_left by assumption. field. lra.
  Qed.

  Lemma T_dom h l : (forall t1 t2, 0 <= t1 <= t2 -> h t2 <= h t1) ->
    (forall w t1 t2, 0 <= w <= 1 -> 0 <= t1 -> 0 <= t2 ->
      h (w * t1 + (1 - w) * t2) <= w * h t1 + (1 - w) * h t2) ->
    forall a z0 d0 t, grid ((z0, d0) :: l) ->
    (forall zd, In zd ((z0, d0) :: l) -> h (xx (fst zd)) <= snd zd) ->
    xx z0 <= t -> h t <= T (fun x => x) a ((z0, d0) :: l) t.
  Proof.
    intros Hm Hc. induction l as [|[z1 d1] l IH]; intros a z0 d0 t G HH Ht.
    - cbn [T]. rewrite pos_above by assumption. pose proof (HH _ (or_introl eq_refl)) as H0. cbn in H0.
      pose proof (Hm (xx z0) t ltac:(pose proof (xx_pos z0); lra)). lra.
    - pose proof (HH _ (or_introl eq_refl)) as H0. cbn [fst snd] in H0.
      pose proof (HH _ (or_intror (or_introl eq_refl))) as H1. cbn [fst snd] in H1.
      destruct G as (L & D & G). pose proof (xx_lt _ _ L). pose proof (xx_pos z0).
      assert (ET : T (fun x => x) a ((z0, d0) :: (z1, d1) :: l) t =
        T (fun x => x) ((d1 - d0) / expm1 (- gap z0 z1)) ((z1, d1) :: l) t).
      { rewrite T_cons, pos_above by assumption. lra. }
      rewrite ET. destruct (Rle_dec (xx z1) t) as [M|M].
      + apply IH; auto. intros zd Hz. apply HH. right. assumption.
      + rewrite T_left by (auto; lra). rewrite gap_left by assumption.
        set (w := (xx z1 - t) / (xx z1 - xx z0)).
        assert (Hw : 0 <= w <= 1).
        { unfold w. split.
          - apply Rmult_le_pos; [lra|]. left. apply Rinv_0_lt_compat. lra.
          - apply (Rmult_le_reg_r (xx z1 - xx z0)); [lra|]. unfold Rdiv.
            rewrite Rmult_assoc, Rinv_l by lra. lra. }
        assert (Et : t = w * xx z0 + (1 - w) * xx z1) by (unfold w; field; lra).
        pose proof (Hc w (xx z0) (xx z1) Hw ltac:(lra) ltac:(lra)) as C. rewrite <- Et in C.
        replace (d1 + (d1 - d0) / (- (xx z1 - xx z0) / xx z1) * (1 - t / xx z1)) with
          (w * d0 + (1 - w) * d1) by (unfold w; field; lra).
        assert (w * h (xx z0) <= w * d0) by (apply Rmult_le_compat_l; lra).
        assert ((1 - w) * h (xx z1) <= (1 - w) * d1) by (apply Rmult_le_compat_l; lra). lra.
  Qed.

  Lemma grid_head_le l : forall z0 d0 z d, grid ((z0, d0) :: l) -> In (z, d) ((z0, d0) :: l) -> (z0 <= z)%Z.
  Proof.
    induction l as [|[z1 d1] l IH]; intros z0 d0 z d G Hin.
    - destruct Hin as [E|[]]. injection E as -> ->. lia.
    - destruct Hin as [E|Hin]; [injection E as -> ->; lia|]. destruct G as (L & _ & G).
      specialize (IH _ _ _ _ G Hin). lia.
  Qed.
  Lemma xx_le z1 z2 : (z1 <= z2)%Z -> xx z1 <= xx z2.
  Proof. intros H. apply exp_le. apply IZR_le in H. nra. Qed.

  Lemma T_at l : forall a z0 d0 z d, grid ((z0, d0) :: l) -> In (z, d) ((z0, d0) :: l) ->
    T (fun x => x) a ((z0, d0) :: l) (xx z) = d.
  Proof.
    induction l as [|[z1 d1] l IH]; intros a z0 d0 z d G Hin.
    - destruct Hin as [E|[]]. injection E as -> ->. cbn [T]. rewrite pos_above by lra. lra.
    - destruct Hin as [E|Hin].
      + injection E as -> ->. rewrite T_left by (auto; lra). field. pose proof (xx_pos z). lra.
      + assert (z0 < z)%Z.
        { destruct G as (L & _ & G). pose proof (grid_head_le _ _ _ _ _ G Hin). lia. }
        destruct G as (L & _ & G).
        specialize (IH ((d1 - d0) / expm1 (- gap z0 z1)) _ _ _ _ G Hin).
        rewrite T_cons, IH, pos_above by (apply xx_le; lia). lra.
  Qed.

  (** convex values: nothing is clipped *)
  Lemma convex_slopes h t0 t1 t2 :
    (forall w t1 t2, 0 <= w <= 1 -> 0 <= t1 -> 0 <= t2 ->
      h (w * t1 + (1 - w) * t2) <= w * h t1 + (1 - w) * h t2) ->
    0 <= t0 -> t0 < t1 -> t1 < t2 ->
    (h t1 - h t2) / (t2 - t1) <= (h t0 - h t1) / (t1 - t0).
  Proof.
    intros Hc H0 H1 H2.
    set (w := (t2 - t1) / (t2 - t0)).
    assert (Hw : 0 <= w <= 1).
    { unfold w. split.
      - apply Rmult_le_pos; [lra|]. left. apply Rinv_0_lt_compat. lra.
      - apply (Rmult_le_reg_r (t2 - t0)); [lra|]. unfold Rdiv. rewrite Rmult_assoc, Rinv_l by lra. lra. }
    pose proof (Hc w t0 t2 Hw ltac:(lra) ltac:(lra)) as C.
    replace (w * t0 + (1 - w) * t2) with t1 in C by (unfold w; field; lra).
    assert (C2 : h t1 * (t2 - t0) <= (t2 - t1) * h t0 + (t1 - t0) * h t2).
    { apply Rmult_le_compat_r with (r := t2 - t0) in C; [|lra].
      eapply Rle_trans; [exact C|]. right. unfold w. field. lra. }
    apply (Rmult_le_reg_r ((t2 - t1) * (t1 - t0))); [nra|].
    replace ((h t1 - h t2) / (t2 - t1) * ((t2 - t1) * (t1 - t0))) with ((h t1 - h t2) * (t1 - t0)) by (field; lra).
    replace ((h t0 - h t1) / (t1 - t0) * ((t2 - t1) * (t1 - t0))) with ((h t0 - h t1) * (t2 - t1)) by (field; lra).
    nra.
  Qed.

  Lemma dots_nonneg h l :
    (forall t1 t2, 0 <= t1 <= t2 -> h t2 <= h t1) ->
    (forall w t1 t2, 0 <= w <= 1 -> 0 <= t1 -> 0 <= t2 ->
      h (w * t1 + (1 - w) * t2) <= w * h t1 + (1 - w) * h t2) ->
    forall tp a z0 d0, 0 <= tp < xx z0 -> a = (h tp - h (xx z0)) * (xx z0 / (xx z0 - tp)) ->
    grid ((z0, d0) :: l) -> (forall zd, In zd ((z0, d0) :: l) -> snd zd = h (xx (fst zd))) ->
    forall q, In q (dots a ((z0, d0) :: l)) -> 0 <= q.
  Proof.
    intros Hm Hc. induction l as [|[z1 d1] l IH]; intros tp a z0 d0 Htp Ea G HH q Hq.
    - destruct Hq as [<-|[]]. rewrite Ea. pose proof (Hm tp (xx z0) ltac:(lra)).
      assert (0 <= xx z0 / (xx z0 - tp)) by (apply Rmult_le_pos; [lra | left; apply Rinv_0_lt_compat; lra]).
      nra.
    - pose proof (HH _ (or_introl eq_refl)) as H0. cbn [fst snd] in H0.
      pose proof (HH _ (or_intror (or_introl eq_refl))) as H1. cbn [fst snd] in H1.
      destruct G as (L & D & G). pose proof (xx_lt _ _ L). pose proof (xx_pos z0).
      destruct Hq as [<-|Hq].
      + pose proof (convex_slopes h tp (xx z0) (xx z1) Hc ltac:(lra) ltac:(lra) ltac:(lra)) as CS.
        rewrite gap_right by assumption. rewrite Ea, H0, H1.
        replace ((h tp - h (xx z0)) * (xx z0 / (xx z0 - tp)) + (h (xx z1) - h (xx z0)) / ((xx z1 - xx z0) / xx z0))
          with (xx z0 * ((h tp - h (xx z0)) / (xx z0 - tp) - (h (xx z0) - h (xx z1)) / (xx z1 - xx z0)))
          by (field; repeat split; lra).
        nra.
      + change (In q (dots ((d1 - d0) / expm1 (- gap z0 z1)) ((z1, d1) :: l))) in Hq.
        apply (IH (xx z0) ((d1 - d0) / expm1 (- gap z0 z1)) z1 d1); auto.
        * lra.
        * rewrite gap_left by assumption. rewrite H0, H1. field. lra.
        * intros zd Hz. apply HH. right. assumption.
  Qed.

  Lemma T_id_eq f a l t : (forall q, In q (dots a l) -> f q = q) -> T f a l t = T (fun x => x) a l t.
  Proof.
    revert a. induction l as [|[z0 d0] l IH]; intros a H; [reflexivity|].
    destruct l as [|[z1 d1] l].
    - cbn [T]. rewrite H by (left; reflexivity). reflexivity.
    - rewrite !T_cons. rewrite (H (a + (d1 - d0) / expm1 (gap z0 z1))) by (left; reflexivity).
      f_equal. apply IH. intros q Hq. apply H. right. exact Hq.
  Qed.

  (** the code computes [dots] *)
  Lemma code_dots a l : l <> [] ->
    map (fun yz => fst yz + snd yz)
      (combine (a :: map (fun de => fst de / expm1 (- snd de))
                  (combine (rdiff (map snd l)) (map (fun z => IZR z * disc) (zdiff (map fst l)))))
               (map (fun de => fst de / expm1 (snd de))
                  (combine (rdiff (map snd l)) (map (fun z => IZR z * disc) (zdiff (map fst l)))) ++ [0])) =
    dots a l.
  Proof.
    revert a. induction l as [|[z0 d0] l IH]; intros a Hl; [congruence|].
    destruct l as [|[z1 d1] l]; [reflexivity|].
    specialize (IH ((d1 - d0) / expm1 (- gap z0 z1)) ltac:(discriminate)).
    rewrite dots_cons, <- IH.
    cbn [map fst snd rdiff zdiff combine app]. reflexivity.
  Qed.

  Lemma dots_length a l : length (dots a l) = length l.
  Proof.
    revert a. induction l as [|[z0 d0] l IH]; intros a; [reflexivity|].
    destruct l as [|[z1 d1] l]; [reflexivity|].
    change (S (length (dots ((d1 - d0) / expm1 (- gap z0 z1)) ((z1, d1) :: l))) = S (length ((z1, d1) :: l))).
    rewrite IH. reflexivity.
  Qed.

  Lemma code_grid l :
    existsb (fun x => Rleb x 0) (map (fun z => IZR z * disc) (zdiff (map fst l))) = false ->
    existsb (fun x => Rltb 0 x) (rdiff (map snd l)) = false -> grid l.
  Proof.
    induction l as [|[z0 d0] l IH]; [reflexivity|]. destruct l as [|[z1 d1] l]; [reflexivity|].
    cbn [map fst snd zdiff rdiff existsb]. intros H1 H2.
    apply orb_false_elim in H1. destruct H1 as [A1 B1]. apply orb_false_elim in H2. destruct H2 as [A2 B2].
    split; [|split].
    - destruct (Rleb_spec (IZR (z1 - z0) * disc) 0) as [|N]; [discriminate|].
      apply lt_IZR. rewrite minus_IZR in N. nra.
    - destruct (Rltb_spec 0 (d1 - d0)); [discriminate | lra].
    - apply IH; assumption.
  Qed.
  Lemma grid_code l : grid l ->
    existsb (fun x => Rleb x 0) (map (fun z => IZR z * disc) (zdiff (map fst l))) = false /\
    existsb (fun x => Rltb 0 x) (rdiff (map snd l)) = false.
  Proof.
    induction l as [|[z0 d0] l IH]; [auto|]. destruct l as [|[z1 d1] l]; [auto|].
    intros (L & D & G). destruct (IH G) as [I1 I2].
    cbn [map fst snd zdiff rdiff existsb] in *. rewrite I1, I2, Rleb_false, Rltb_false; [auto| lra |].
    apply IZR_lt in L. rewrite minus_IZR. nra.
  Qed.

  Lemma grid_NoDup l : grid l -> NoDup (map fst l).
  Proof.
    induction l as [|[z0 d0] l IH]; intros G; [constructor|]. cbn [map fst]. constructor.
    - intros Hin. destruct l as [|[z1 d1] l]; [destruct Hin|]. destruct G as (L & _ & G).
      apply in_map_iff in Hin. destruct Hin as ([z d] & E & Hin). cbn in E. subst z.
      pose proof (grid_head_le _ _ _ _ _ G Hin). lia.
    - apply IH. destruct l as [|[z1 d1] l]; [exact I|]. apply G.
  Qed.

  Lemma map_combine_keys (ks : list Z) (vs : list R) : length ks = length vs -> keys (combine ks vs) = ks.
  Proof.
    revert vs. unfold keys. induction ks as [|k ks IH]; intros [|v vs] H; try discriminate; [reflexivity|].
    cbn. f_equal. apply IH. injection H as H. assumption.
  Qed.

  Lemma split_grid (eps : list Z) (deltas : list R) : length eps = length deltas ->
    eps = map fst (combine eps deltas) /\ deltas = map snd (combine eps deltas).
  Proof.
    revert deltas. induction eps as [|z eps IH]; intros [|d deltas] H; try discriminate; [auto|].
    injection H as H. destruct (IH _ H) as [E1 E2]. cbn. rewrite <- E1, <- E2. auto.
  Qed.

  Lemma existsb_false_all {A} (f : A -> bool) l : existsb f l = false -> forall x, In x l -> f x = false.
  Proof.
    intros H x Hx. destruct (f x) eqn:E; [|reflexivity].
    assert (existsb f l = true) by (apply existsb_exists; eauto). congruence.
  Qed.

  Lemma dots_ok eps deltas p : connect_dots disc eps deltas = Ok p ->
    let l := combine eps deltas in
    eps = map fst l /\ deltas = map snd l /\ l <> [] /\ grid l /\
    (forall d, In d deltas -> 0 <= d <= 1) /\
    wf p /\ pessimistic_estimate p = true /\ discretization p = disc /\ infinity_mass p = last deltas 0 /\
    (forall e, pmf_delta p (Fin e) = T (Rmax 0) (1 - hd 0 deltas) l (exp e)) /\
    total p = T (Rmax 0) (1 - hd 0 deltas) l 0.
  Proof.
    unfold connect_dots. intros H.
    destruct (Nat.eqb_spec (length eps) (length deltas)) as [EL|]; [|discriminate].
    destruct (Nat.eqb_spec (length eps) 0) as [|E0]; [discriminate|]. cbn [negb orb] in H.
    destruct (split_grid eps deltas EL) as [E1 E2]. cbv zeta.
    destruct (existsb (fun x => Rleb x 0) _) eqn:C1; [discriminate|].
    destruct (existsb (fun x => Rltb x 0) deltas) eqn:C2; [discriminate|].
    destruct (existsb (fun x => Rltb 1 x) deltas) eqn:C3; [discriminate|]. cbn [orb] in H.
    destruct (existsb (fun x => Rltb 0 x) _) eqn:C4; [discriminate|].
    set (l := combine eps deltas) in *.
    assert (Hl : l <> []).
    { intros N. rewrite N in E1. rewrite E1 in E0. apply E0. reflexivity. }
    assert (G : grid l) by (apply code_grid; [rewrite <- E1 | rewrite <- E2]; assumption).
    assert (R01 : forall d, In d deltas -> 0 <= d <= 1).
    { intros d Hin. pose proof (existsb_false_all _ _ C2 d Hin). pose proof (existsb_false_all _ _ C3 d Hin).
      cbn in *. destruct (Rltb_spec d 0); [discriminate|]. destruct (Rltb_spec 1 d); [discriminate|]. lra. }
    assert (ED : map (fun yz => Rmax 0 (fst yz + snd yz))
      (combine ((1 - hd 0 deltas) :: map (fun de => fst de / expm1 (- snd de))
         (combine (rdiff deltas) (map (fun z => IZR z * disc) (zdiff eps))))
       (map (fun de => fst de / expm1 (snd de))
         (combine (rdiff deltas) (map (fun z => IZR z * disc) (zdiff eps))) ++ [0])) =
      map (Rmax 0) (dots (1 - hd 0 deltas) l)).
    { rewrite <- code_dots by assumption. rewrite map_map, <- E1, <- E2. reflexivity. }
    rewrite ED in H.
    set (probs := map (Rmax 0) (dots (1 - hd 0 deltas) l)) in *.
    assert (LP : length eps = length probs).
    { unfold probs. rewrite map_length, dots_length, E1, map_length. reflexivity. }
    assert (KD : keys (combine eps probs) = eps) by (apply map_combine_keys; assumption).
    assert (NDE : NoDup eps) by (rewrite E1; apply grid_NoDup; assumption).
    rewrite dict_of_NoDup in H by (rewrite KD; assumption).
    assert (Hi : 0 <= last deltas 0).
    { apply R01. rewrite E2. clear -Hl. induction l as [|x l IH]; [congruence|].
      destruct l as [|y l]; [left; reflexivity|]. right. apply IH. discriminate. }
    assert (ND : NoDup (keys (combine eps probs))) by (rewrite KD; assumption).
    assert (NN : nonneg_dict (combine eps probs)).
    { apply nonneg_dict_iff; [assumption|]. intros kv Hin. destruct kv as [k v]. apply in_combine_r in Hin.
      unfold probs in Hin. apply in_map_iff in Hin. destruct Hin as (q & <- & _). cbn. apply Rmax_l. }
    destruct (create_pmf_ok _ _ _ _ _ Hd Hi ND NN H) as (W & PS & IM & DI & PE).
    assert (TS : forall t, rsum (fun kv => snd kv * pos (1 - t / xx (fst kv))) (combine eps probs) + last deltas 0 =
      T (Rmax 0) (1 - hd 0 deltas) l t).
    { intros t. rewrite <- T_sum by assumption. rewrite <- E1, <- E2. reflexivity. }
    repeat (split; [assumption|]). split.
    - intros e. rewrite pmf_delta_psum by assumption. unfold ptest. rewrite PS, DI, IM, <- TS.
      rewrite Rmult_1_r. f_equal. unfold dsum. apply rsum_ext. intros kv _. unfold hgain, xx.
      rewrite exp_minus. reflexivity.
    - unfold total. rewrite PS, IM, <- TS. f_equal. unfold dsum. apply rsum_ext. intros kv _.
      rewrite pos_below by (left; apply xx_pos). field. pose proof (xx_pos (fst kv)). lra.
  Qed.

  Lemma dots_dominates eps deltas p h : connect_dots disc eps deltas = Ok p -> privacy_curve h ->
    (forall z d, In (z, d) (combine eps deltas) -> h (exp (IZR z * disc)) <= d) ->
    forall e, h (exp e) <= pmf_delta p (Fin e).
  Proof.
    intros H (h0 & h1 & hm & hc) HH e.
    destruct (dots_ok _ _ _ H) as (E1 & E2 & Hl & G & R01 & W & PE & DI & IM & ED & _).
    rewrite ED. eapply Rle_trans; [|apply (T_le (fun x => x)); intros; apply Rmax_r].
    destruct (combine eps deltas) as [|[z0 d0] l] eqn:El; [congruence|].
    rewrite E2. cbn [map hd snd]. pose proof (exp_pos e) as Pe.
    destruct (Rle_dec (xx z0) (exp e)) as [L|L].
    - apply T_dom; auto. intros [z d] Hin. apply HH. assumption.
    - rewrite T_left by (auto; lra). pose proof (xx_pos z0).
      set (w := exp e / xx z0).
      assert (Hw : 0 <= w <= 1).
      { unfold w. split; [apply Rmult_le_pos; [lra | left; apply Rinv_0_lt_compat; lra]|].
        apply (Rmult_le_reg_r (xx z0)); [lra|]. unfold Rdiv. rewrite Rmult_assoc, Rinv_l by lra. lra. }
      pose proof (hc w (xx z0) 0 Hw ltac:(lra) ltac:(lra)) as C. rewrite h0 in C.
      replace (w * xx z0 + (1 - w) * 0) with (exp e) in C by (unfold w; field; lra).
      pose proof (HH z0 d0 (or_introl eq_refl)) as Hz0. fold (xx z0) in Hz0.
      assert (w * h (xx z0) <= w * d0) by (apply Rmult_le_compat_l; lra). lra.
  Qed.

  Lemma dots_at_least eps deltas p : connect_dots disc eps deltas = Ok p ->
    forall z d, In (z, d) (combine eps deltas) -> d <= pmf_delta p (Fin (IZR z * disc)).
  Proof.
    intros H z d Hin.
    destruct (dots_ok _ _ _ H) as (E1 & E2 & Hl & G & R01 & W & PE & DI & IM & ED & _).
    rewrite ED. eapply Rle_trans; [|apply (T_le (fun x => x)); intros; apply Rmax_r].
    destruct (combine eps deltas) as [|[z0 d0] l] eqn:El; [congruence|].
    fold (xx z). rewrite (T_at l _ z0 d0 z d G Hin). lra.
  Qed.

  Lemma dots_curve eps p h : privacy_curve h ->
    connect_dots disc eps (map (fun z => h (exp (IZR z * disc))) eps) = Ok p ->
    proper p /\ (forall z, In z eps -> pmf_delta p (Fin (IZR z * disc)) = h (exp (IZR z * disc))) /\
    (forall e, h (exp e) <= pmf_delta p (Fin e)).
  Proof.
    intros Hh H. pose proof Hh as (h0 & h1 & hm & hc).
    destruct (dots_ok _ _ _ H) as (E1 & E2 & Hl & G & R01 & W & PE & DI & IM & ED & ET).
    set (deltas := map (fun z => h (exp (IZR z * disc))) eps) in *.
    assert (Hin : forall zd, In zd (combine eps deltas) -> snd zd = h (xx (fst zd))).
    { intros [z d] Hin. cbn [fst snd]. unfold deltas in Hin. clear -Hin.
      induction eps as [|z' eps IH]; [destruct Hin|]. destruct Hin as [E|Hin]; [|apply IH; assumption].
      injection E as -> <-. reflexivity. }
    destruct (combine eps deltas) as [|[z0 d0] l] eqn:El; [congruence|].
    assert (E0 : hd 0 deltas = d0) by (rewrite E2; reflexivity).
    assert (Hd0 : d0 = h (xx z0)) by (apply (Hin (z0, d0)); left; reflexivity).
    pose proof (xx_pos z0) as P0.
    assert (NN : forall q, In q (dots (1 - hd 0 deltas) ((z0, d0) :: l)) -> Rmax 0 q = q).
    { intros q Hq. apply Rmax_right. revert q Hq.
      apply (dots_nonneg h l hm hc 0 (1 - hd 0 deltas) z0 d0); auto; [lra|].
      rewrite h0, E0, Hd0. field. lra. }
    rewrite T_id_eq in ET by assumption.
    split; [|split].
    - apply proper_total. split; [assumption|]. rewrite ET, T_left, E0 by (auto; lra). field. lra.
    - intros z Hz. rewrite ED, T_id_eq by assumption. fold (xx z).
      apply (T_at l _ z0 d0 z (h (xx z)) G). rewrite <- El. unfold deltas. clear -Hz.
      induction eps as [|z' eps IH]; [destruct Hz|]. cbn [map combine]. destruct Hz as [->|Hz]; [left; reflexivity|].
      right. apply IH. assumption.
    - apply (dots_dominates eps deltas p h H Hh). rewrite El. intros z d Hz.
      right. symmetry. apply (Hin (z, d) Hz).
  Qed.

  (** the routine accepts every increasing grid with values of a curve *)
  Lemma dots_total eps h : privacy_curve h -> eps <> [] -> StronglySorted Z.lt eps ->
    exists p, connect_dots disc eps (map (fun z => h (exp (IZR z * disc))) eps) = Ok p.
  Proof.
    intros (h0 & h1 & hm & hc) He Hs. set (deltas := map (fun z => h (exp (IZR z * disc))) eps).
    assert (EL : length eps = length deltas) by (unfold deltas; rewrite map_length; reflexivity).
    assert (G : grid (combine eps deltas)).
    { unfold deltas. clear He EL deltas. induction Hs as [|z eps Hs IH Hz]; [exact I|].
      cbn [map combine]. destruct eps as [|z1 eps]; [exact I|]. cbn [map combine] in *.
      inversion Hz as [|? ? L]; subst. split; [assumption|]. split; [|assumption].
      apply hm. fold (xx z) (xx z1). pose proof (xx_pos z). pose proof (xx_lt _ _ L). lra. }
    destruct (grid_code _ G) as [C1 C2]. destruct (split_grid eps deltas EL) as [E1 E2].
    rewrite <- E1 in C1. rewrite <- E2 in C2.
    unfold connect_dots. rewrite (proj2 (Nat.eqb_eq _ _) EL).
    destruct (Nat.eqb_spec (length eps) 0) as [L0|L0]; [destruct eps; [congruence | discriminate]|].
    cbn [negb orb]. rewrite C1.
    assert (R01 : forall d, In d deltas -> 0 <= d <= 1).
    { intros d Hin. unfold deltas in Hin. apply in_map_iff in Hin. destruct Hin as (z & <- & _).
      apply h1. left. apply exp_pos. }
    assert (C3 : existsb (fun x => Rltb x 0) deltas = false).
    { destruct (existsb (fun x => Rltb x 0) deltas) eqn:B; [|reflexivity]. apply existsb_exists in B. destruct B as (d & Hin & B).
      specialize (R01 d Hin). rewrite Rltb_false in B by lra. discriminate. }
    assert (C4 : existsb (fun x => Rltb 1 x) deltas = false).
    { destruct (existsb (fun x => Rltb 1 x) _) eqn:B; [|reflexivity]. apply existsb_exists in B. destruct B as (d & Hin & B).
      specialize (R01 d Hin). rewrite Rltb_false in B by lra. discriminate. }
    rewrite C3, C4, C2. cbn [orb]. apply create_pmf_total.
  Qed.

  (** fixed gap = general *)
  Fixpoint dots1 (a : R) (ds : list R) : list R :=
    match ds with
    | [] => [a + 0]
    | d :: ds => (a + d / expm1 disc) :: dots1 (d / expm1 (- disc)) ds
    end.
  Lemma fixed_dots1 ds : forall a d,
    ((a + d / expm1 disc) :: map (fun dd => (snd dd - fst dd * exp disc) / expm1 disc)
       (combine (removelast (d :: ds)) (tl (d :: ds)))) ++ [last (d :: ds) 0 / expm1 (- disc)] = dots1 a (d :: ds).
  Proof.
    induction ds as [|d' ds IH]; intros a d.
    - cbn. f_equal. f_equal. lra.
    - specialize (IH (d / expm1 (- disc)) d').
      change (dots1 a (d :: d' :: ds)) with ((a + d / expm1 disc) :: dots1 (d / expm1 (- disc)) (d' :: ds)).
      rewrite <- IH. change (removelast (d :: d' :: ds)) with (d :: removelast (d' :: ds)).
      cbn [tl combine map app fst snd]. f_equal. f_equal.
      unfold expm1. rewrite exp_Ropp. assert (1 < exp disc) by (rewrite <- exp_0; apply exp_increasing; lra).
      field. split; lra.
  Qed.

  Lemma dots_zrange a lo deltas : deltas <> [] ->
    dots a (combine (zrange lo (length deltas)) deltas) = dots1 a (rdiff deltas).
  Proof.
    revert a lo. induction deltas as [|d deltas IH]; intros a lo Hn; [congruence|].
    destruct deltas as [|d1 deltas]; [reflexivity|].
    assert (G1 : gap lo (lo + 1) = disc) by (unfold gap; replace (lo + 1 - lo)%Z with 1%Z by lia; lra).
    specialize (IH ((d1 - d) / expm1 (- disc)) (lo + 1)%Z ltac:(discriminate)).
    cbn [length zrange combine] in *. rewrite dots_cons, G1.
    change (rdiff (d :: d1 :: deltas)) with ((d1 - d) :: rdiff (d1 :: deltas)). cbn [dots1].
    rewrite <- IH. reflexivity.
  Qed.

  Lemma zrange_diff lo n :
    existsb (fun x => Rleb x 0) (map (fun z => IZR z * disc) (zdiff (zrange lo n))) = false.
  Proof.
    revert lo. induction n as [|n IH]; intros lo; [reflexivity|]. destruct n as [|n]; [reflexivity|].
    specialize (IH (lo + 1)%Z). cbn [zrange zdiff map existsb] in *. rewrite IH, Rleb_false; [reflexivity|].
    replace (lo + 1 - lo)%Z with 1%Z by lia. lra.
  Qed.

  Lemma fixed_gap_eq lower upper deltas :
    connect_dots_fixed_gap disc lower upper deltas =
    connect_dots disc (zrange lower (Z.to_nat (upper - lower + 1))) deltas.
  Proof.
    unfold connect_dots_fixed_gap, connect_dots. rewrite zrange_length.
    destruct (Z.ltb_spec upper lower) as [L|L].
    { replace (Z.to_nat (upper - lower + 1)) with 0%nat by lia.
      cbn [Nat.eqb]. rewrite orb_true_r. reflexivity. }
    destruct (Z.eqb_spec (Z.of_nat (length deltas)) (upper - lower + 1)) as [E|N]; cbn [negb].
    2:{ destruct (Nat.eqb_spec (Z.to_nat (upper - lower + 1)) (length deltas)) as [E|_]; [exfalso; lia|]. reflexivity. }
    assert (EL : Z.to_nat (upper - lower + 1) = length deltas) by lia. rewrite EL, Nat.eqb_refl.
    destruct (Nat.eqb_spec (length deltas) 0); [exfalso; lia|]. cbn [negb orb].
    rewrite zrange_diff. destruct (_ || _)%bool eqn:RG; [reflexivity|].
    apply orb_false_elim in RG. destruct RG as [_ RG1].
    assert (Hn : deltas <> []) by (intros ->; apply n; reflexivity).
    assert (EP : forall a, map (fun yz => Rmax 0 (fst yz + snd yz))
      (combine (a :: map (fun de => fst de / expm1 (- snd de))
         (combine (rdiff deltas) (map (fun z => IZR z * disc) (zdiff (zrange lower (length deltas))))))
       (map (fun de => fst de / expm1 (snd de))
         (combine (rdiff deltas) (map (fun z => IZR z * disc) (zdiff (zrange lower (length deltas))))) ++ [0])) =
      map (Rmax 0) (dots1 a (rdiff deltas))).
    { intros a. rewrite <- (dots_zrange a lower) by assumption.
      destruct (split_grid (zrange lower (length deltas)) deltas (zrange_length _ _)) as [E1 E2].
      assert (Hl : combine (zrange lower (length deltas)) deltas <> []).
      { intros N0. rewrite N0 in E2. cbn in E2. contradiction. }
      rewrite <- code_dots by exact Hl. rewrite map_map, <- E1, <- E2. reflexivity. }
    rewrite EP. destruct (Z.eqb_spec lower upper) as [EQ|NE].
    - destruct deltas as [|d [|d' deltas]]; [congruence| |cbn [length] in E; exfalso; lia].
      cbn [rdiff existsb hd dots1 map length zrange combine last].
      pose proof (existsb_false_all _ _ RG1 d (or_introl eq_refl)) as B. cbn in B.
      destruct (Rltb_spec 1 d); [discriminate|].
      unfold dict_of. cbn [fold_left dset fst snd]. rewrite Rplus_0_r, Rmax_right by lra. reflexivity.
    - destruct (existsb (fun x => Rltb 0 x) (rdiff deltas)); [reflexivity|].
      destruct deltas as [|d [|d' deltas]]; [congruence| exfalso; cbn [length] in E; lia|].
      change (rdiff (d :: d' :: deltas)) with ((d' - d) :: rdiff (d' :: deltas)).
      cbn [hd]. rewrite (fixed_dots1 (rdiff (d' :: deltas)) (1 - d) (d' - d)). reflexivity.
  Qed.
End Dots.

Lemma exper_curve E : valid E -> privacy_curve (fun t => hs E 1 t).
Proof.
  intros V. split; [|split; [|split]].
  - rewrite hs_b0 by (auto; lra). reflexivity.
  - intros t Ht. split; [apply hs_nonneg|]. apply hs_le_a; auto; lra.
  - intros t1 t2 H. apply hs_mono; [assumption | lra].
  - intros w t1 t2 Hw _ _. apply hs_convex. assumption.
Qed.
