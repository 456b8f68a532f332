(** Adaptive composition of queries with Gaussian noise is dominated by a single such query. *)
From Coquelicot Require Import Coquelicot.
From Verif Require Import Base XReal TypesAdjacency SpecDP SpecMech SpecNoiseAcc ProofDP ProofShape ProofShapeGauss ProofPeak ProofCuts ProofNormal ProofGdpConv.
Local Open Scope R_scope.
Local Arguments Rltb : simpl never.
Local Arguments Rleb : simpl never.
Local Arguments Reqb : simpl never.

Lemma small_le x : (forall e, 0 < e -> x <= e) -> x <= 0.
Proof. intros H. destruct (Rle_lt_dec x 0) as [|L]; [assumption|]. specialize (H (x / 2) ltac:(lra)). lra. Qed.

Section Gdp.
  Context (Phi : R -> R) (HPhi : normal_cdf Phi) (c : R) (Hc : 0 < c) (D : forall x, derivable_pt_lim Phi x (c * bell x)).
  Let range := phi_range Phi HPhi.
  Let mono := phi_mono Phi HPhi.

  (** What an event that is a half line gains: the first input gives N(-mu, 1), the second one
      N(0, 1). *)
  Definition test (mu a b t : R) : R := a * Phi (t + mu) - b * Phi t.
  Definition thr (mu a b : R) : R := - mu / 2 - ln (b / a) / mu.
  Lemma shift_deriv k x : derivable_pt_lim (fun t => Phi (t + k)) x (c * bell (x + k)).
  Proof.
    replace (c * bell (x + k)) with (c * bell (x + k) * 1) by ring.
    apply (derivable_pt_lim_comp (fun t => t + k) Phi x 1); [|apply D].
    replace 1 with (1 + 0) by ring. apply (derivable_pt_lim_plus id (fun _ => k)); [apply derivable_pt_lim_id | apply derivable_pt_lim_const].
  Qed.
  Lemma test_deriv mu a b t : derivable_pt_lim (test mu a b) t (a * (c * bell (t + mu)) - b * (c * bell t)).
  Proof.
    apply derivable_pt_lim_minus; [apply (derivable_pt_lim_scal (fun t => Phi (t + mu)) a), shift_deriv | apply (derivable_pt_lim_scal Phi b), D].
  Qed.
  Lemma bell_shift mu t : bell (t + mu) = bell t * exp (- mu * t - mu * mu / 2).
  Proof. unfold bell. rewrite <- exp_plus. f_equal. field. Qed.
  Lemma test_slope mu a b t : a * (c * bell (t + mu)) - b * (c * bell t) = c * bell t * (a * exp (- mu * t - mu * mu / 2) - b).
  Proof. rewrite bell_shift. ring. Qed.
  Lemma thr_eq mu a b : 0 < mu -> 0 < a -> 0 < b -> a * exp (- mu * thr mu a b - mu * mu / 2) = b.
  Proof.
    intros Hm Ha Hb. replace (- mu * thr mu a b - mu * mu / 2) with (ln (b / a)) by (unfold thr; field; lra).
    rewrite exp_ln by (apply Rdiv_lt_0_compat; assumption). field. lra.
  Qed.
  Lemma test_up mu a b x y : 0 < mu -> 0 < a -> 0 < b -> x <= y -> y <= thr mu a b -> test mu a b x <= test mu a b y.
  Proof.
    intros Hm Ha Hb L H. apply (deriv_nonneg _ _ _ _ (test_deriv mu a b) L). intros z Hz. rewrite test_slope.
    apply Rmult_le_pos; [apply Rmult_le_pos; [lra | left; apply exp_pos]|]. rewrite <- (thr_eq mu a b Hm Ha Hb) at 1.
    assert (exp (- mu * thr mu a b - mu * mu / 2) <= exp (- mu * z - mu * mu / 2)) by (apply exp_le; nra). nra.
  Qed.
  Lemma test_down mu a b x y : 0 < mu -> 0 < a -> 0 < b -> thr mu a b <= x -> x <= y -> test mu a b y <= test mu a b x.
  Proof.
    intros Hm Ha Hb H L. apply (deriv_nonpos _ _ _ _ (test_deriv mu a b) L). intros z Hz. rewrite test_slope.
    assert (K : 0 <= c * bell z) by (apply Rmult_le_pos; [lra | left; apply exp_pos]).
    assert (a * exp (- mu * z - mu * mu / 2) <= b); [|nra]. rewrite <- (thr_eq mu a b Hm Ha Hb) at 1.
    apply Rmult_le_compat_l; [lra|]. apply exp_le. nra.
  Qed.
  Lemma test_best mu a b t : 0 < mu -> 0 < a -> 0 < b -> test mu a b t <= test mu a b (thr mu a b).
  Proof.
    intros Hm Ha Hb. destruct (Rle_lt_dec t (thr mu a b)) as [L|L]; [apply test_up | apply test_down]; lra.
  Qed.
  Lemma test_peaked mu a b : 0 < mu -> 0 < a -> 0 < b -> peaked (test mu a b) (a - b) (Fin (thr mu a b)).
  Proof.
    intros Hm Ha Hb. pose proof HPhi as ((_ & _ & Lo & Up) & _).
    assert (Z : forall y, y <= thr mu a b -> 0 <= test mu a b y).
    { intros y Hy. assert (- test mu a b y <= 0); [|lra]. apply small_le. intros e He. destruct (Lo (e / b) ltac:(apply Rdiv_lt_0_compat; lra)) as [x Hx].
      assert (test mu a b (Rmin x y) <= test mu a b y) by (apply test_up; try assumption; apply Rmin_r).
      assert (Phi (Rmin x y) <= Phi x) by (apply mono, Rmin_l). pose proof (range (Rmin x y + mu)).
      assert (b * Phi (Rmin x y) <= b * (e / b)) by (apply Rmult_le_compat_l; lra). replace (b * (e / b)) with e in * by (field; lra).
      unfold test in *. nra. }
    assert (I : forall y, thr mu a b <= y -> a - b <= test mu a b y).
    { intros y Hy. assert (a - b - test mu a b y <= 0); [|lra]. apply small_le. intros e He. destruct (Up (e / a) ltac:(apply Rdiv_lt_0_compat; lra)) as [x Hx].
      assert (test mu a b (Rmax x y) <= test mu a b y) by (apply test_down; try assumption; apply Rmax_r).
      assert (Phi x <= Phi (Rmax x y + mu)) by (apply mono; pose proof (Rmax_l x y); lra). pose proof (range (Rmax x y)).
      assert (a * (1 - e / a) <= a * Phi (Rmax x y + mu)) by (apply Rmult_le_compat_l; lra). replace (a * (1 - e / a)) with (a - e) in * by (field; lra).
      unfold test in *. nra. }
    split; [discriminate|]. split.
    - intros x y L1 L2. destruct x as [x| | |], y as [y| | |]; try discriminate; cbn [hend].
      + apply xleb_fin in L1, L2. apply test_up; assumption.
      + apply xleb_fin in L2. apply Z, L2.
      + lra.
    - intros x y L1 L2. destruct x as [x| | |], y as [y| | |]; try discriminate; cbn [hend].
      + apply xleb_fin in L1, L2. apply test_down; assumption.
      + apply xleb_fin in L1. apply I, L1.
      + lra.
  Qed.

  (** ** The composition of two half lines, over the cells of the first query *)
  Section Step.
    Context (m1 m2 a b : R) (H1 : 0 < m1) (H2 : 0 < m2) (Ha : 0 < a) (Hb : 0 < b).
    Let mu := sqrt (m1 * m1 + m2 * m2).
    Lemma mu_sq : mu * mu = m1 * m1 + m2 * m2.
    Proof. apply sqrt_sqrt. nra. Qed.
    Lemma mu_pos : 0 < mu.
    Proof. apply sqrt_lt_R0. nra. Qed.
    Let t := thr mu a b.
    Let be := - m1 / m2.
    Let al0 := mu * t / m2.
    Let al1 := al0 + m2 - be * m1.
    Lemma root_be : root be = mu / m2.
    Proof.
      unfold root. pose proof mu_sq. pose proof mu_pos. apply sqrt_lem_1.
      - nra.
      - left. apply Rdiv_lt_0_compat; assumption.
      - unfold be. replace (mu / m2 * (mu / m2)) with (mu * mu / (m2 * m2)) by (field; lra). rewrite H. field. lra.
    Qed.
    Lemma al0_root : al0 / root be = t.
    Proof. rewrite root_be. unfold al0. pose proof mu_pos. field. lra. Qed.
    Lemma al1_root : al1 / root be = t + mu.
    Proof.
      rewrite root_be. pose proof mu_pos. unfold al1, al0, be. replace (mu * t / m2 + m2 - - m1 / m2 * m1) with ((mu * t + (m1 * m1 + m2 * m2)) / m2) by (field; lra).
      rewrite <- mu_sq. field. lra.
    Qed.
    Definition prim (x : R) : R := a * RInt (dens Phi c be al1) 0 (x + m1) - b * RInt (dens Phi c be al0) 0 x.
    Lemma prim_deriv x : derivable_pt_lim prim x (a * dens Phi c be al1 (x + m1) - b * dens Phi c be al0 x).
    Proof.
      unfold prim. apply derivable_pt_lim_minus.
      - apply (derivable_pt_lim_scal (fun x => RInt (dens Phi c be al1) 0 (x + m1)) a).
        replace (dens Phi c be al1 (x + m1)) with (dens Phi c be al1 (x + m1) * 1) by ring.
        apply (derivable_pt_lim_comp (fun x => x + m1) (fun y => RInt (dens Phi c be al1) 0 y) x 1); [|apply dens_deriv; assumption].
        replace 1 with (1 + 0) by ring. apply (derivable_pt_lim_plus id (fun _ => m1)); [apply derivable_pt_lim_id | apply derivable_pt_lim_const].
      - apply (derivable_pt_lim_scal (fun x => RInt (dens Phi c be al0) 0 x) b). apply dens_deriv; assumption.
    Qed.
    Lemma cell_finite u w s : u <= w ->
      test m2 (a * (Phi (w + m1) - Phi (u + m1))) (b * (Phi w - Phi u)) s <= prim w - prim u.
    Proof.
      intros L. set (h := fun x => prim x - (Phi (s + m2) * (a * Phi (x + m1)) - Phi s * (b * Phi x))).
      assert (G : h u <= h w); [|unfold h, test in *; lra].
      apply (deriv_nonneg h (fun x => a * dens Phi c be al1 (x + m1) - b * dens Phi c be al0 x - (Phi (s + m2) * (a * (c * bell (x + m1))) - Phi s * (b * (c * bell x))))); [|exact L|].
      - intros x. apply derivable_pt_lim_minus; [apply prim_deriv|]. apply derivable_pt_lim_minus.
        + apply (derivable_pt_lim_scal (fun x => a * Phi (x + m1))), (derivable_pt_lim_scal (fun x => Phi (x + m1))), shift_deriv.
        + apply (derivable_pt_lim_scal (fun x => b * Phi x)), (derivable_pt_lim_scal Phi), D.
      - intros x _. set (A := a * (c * bell (x + m1))). set (B := b * (c * bell x)).
        assert (PA : 0 < A) by (unfold A; repeat apply Rmult_lt_0_compat; try assumption; apply exp_pos).
        assert (PB : 0 < B) by (unfold B; repeat apply Rmult_lt_0_compat; try assumption; apply exp_pos).
        pose proof (test_best m2 A B s H2 PA PB) as T.
        assert (E : thr m2 A B = al0 + be * x).
        { unfold thr. assert (LN : ln (B / A) = ln (b / a) + (m1 * x + m1 * m1 / 2)).
          { replace (B / A) with (b / a * exp (m1 * x + m1 * m1 / 2)).
            - rewrite ln_mult, ln_exp; [reflexivity | apply Rdiv_lt_0_compat; assumption | apply exp_pos].
            - unfold A, B. rewrite bell_shift. replace (- m1 * x - m1 * m1 / 2) with (- (m1 * x + m1 * m1 / 2)) by ring. rewrite exp_Ropp.
              pose proof (exp_pos (m1 * x + m1 * m1 / 2)). assert (0 < bell x) by apply exp_pos. field. lra. }
          rewrite LN. unfold al0, be, t, thr. pose proof mu_pos as P. pose proof mu_sq as Q. 
          replace (mu * (- mu / 2 - ln (b / a) / mu)) with (- (mu * mu) / 2 - ln (b / a)) by (field; lra). rewrite Q. field. lra. }
        rewrite E in T. unfold test in T. unfold dens. replace (al1 + be * (x + m1)) with (al0 + be * x + m2) by (unfold al1; ring).
        subst A B. lra.
    Qed.
    Lemma prim_total u : 0 <= u -> prim u - prim (- u) <= test mu a b t + b * (1 - Phi u + Phi (- u)).
    Proof.
      intros Hu. unfold prim.
      assert (E : forall al l w, RInt (dens Phi c be al) 0 w - RInt (dens Phi c be al) 0 l = conv Phi c l w be al).
      { intros al l w. unfold conv. rewrite <- (RInt_Chasles (dens Phi c be al) 0 l w) by (apply dens_int; assumption). unfold plus; cbn. ring. }
      pose proof (E al1 (- u + m1) (u + m1)) as E1. pose proof (E al0 (- u) u) as E0.
      pose proof (conv_upper Phi HPhi c Hc D (- u + m1) (u + m1) be al1 ltac:(lra)) as U.
      pose proof (conv_lower Phi HPhi c Hc D (- u) u be al0 ltac:(lra)) as L.
      rewrite al1_root in U. rewrite al0_root in L. unfold test.
      set (R1 := RInt (dens Phi c be al1) 0 (u + m1)) in *. set (R2 := RInt (dens Phi c be al1) 0 (- u + m1)) in *.
      set (R3 := RInt (dens Phi c be al0) 0 u) in *. set (R4 := RInt (dens Phi c be al0) 0 (- u)) in *.
      change R in (type of R1). change R in (type of R2). change R in (type of R3). change R in (type of R4).
      assert (a * (R1 - R2) <= a * Phi (t + mu)) by (apply Rmult_le_compat_l; lra).
      assert (b * (Phi t - 1 + (Phi u - Phi (- u))) <= b * (R3 - R4)) by (apply Rmult_le_compat_l; lra). lra.
    Qed.
    Definition first (cell : xr * xr) : R := at_end (fun x => Phi (x + m1)) (snd cell) - at_end (fun x => Phi (x + m1)) (fst cell).
    Definition second (cell : xr * xr) : R := at_end Phi (snd cell) - at_end Phi (fst cell).
    Lemma cell_ends cuts cell : In cell (cells cuts) -> (fst cell = MInf \/ exists x, In x cuts /\ fst cell = Fin x) /\ (snd cell = PInf \/ exists x, In x cuts /\ snd cell = Fin x).
    Proof.
      unfold cells. destruct cell as [x y]. intros I. pose proof (in_combine_l _ _ _ _ I) as I1. apply in_combine_r in I. cbn [fst snd]. split.
      - destruct I1 as [<-|I1]; [left; reflexivity|]. apply in_map_iff in I1. destruct I1 as (z & <- & Iz). right. eauto.
      - apply in_app_or in I. destruct I as [I|[<-|[]]]; [|left; reflexivity]. apply in_map_iff in I. destruct I as (z & <- & Iz). right. eauto.
    Qed.
    Lemma bound_cuts (cuts : list R) : exists m, 0 <= m /\ forall x, In x cuts -> - m <= x <= m.
    Proof.
      induction cuts as [|x l (m & Hm & IH)]; [exists 0; split; [lra | intros ? []]|]. exists (Rmax m (Rabs x)).
      split; [eapply Rle_trans; [exact Hm | apply Rmax_l]|]. pose proof (Rmax_l m (Rabs x)). pose proof (Rmax_r m (Rabs x)).
      intros y [<-|I]; [pose proof (Rle_abs x); pose proof (Rle_abs (- x)) as N; rewrite Rabs_Ropp in N; lra | specialize (IH y I); lra].
    Qed.
    Lemma step_sum cuts (s : xr * xr -> R) : StronglySorted Rlt cuts ->
      rsum (fun cell => test m2 (a * first cell) (b * second cell) (s cell)) (cells cuts) <= test mu a b t.
    Proof.
      intros SC. destruct (bound_cuts cuts) as (m & Hm & B).
      assert (G : rsum (fun cell => test m2 (a * first cell) (b * second cell) (s cell)) (cells cuts) - test mu a b t <= 0); [|lra].
      apply small_le. intros e He. pose proof HPhi as ((_ & _ & Lo & Up) & _).
      set (k := e / (2 * (a + b))). assert (Hk : 0 < k) by (apply Rdiv_lt_0_compat; lra).
      destruct (Lo k Hk) as [x Hx]. destruct (Up k Hk) as [y Hy].
      set (u := Rmax m (Rmax (m1 - x) y)).
      assert (U1 : m <= u) by apply Rmax_l. assert (U2 : m1 - x <= u) by (eapply Rle_trans; [apply Rmax_l | apply Rmax_r]).
      assert (U3 : y <= u) by (eapply Rle_trans; [apply Rmax_r | apply Rmax_r]). clearbody u.
      pose proof (mono (- u + m1) x ltac:(lra)) as B1. pose proof (mono (- u) (- u + m1) ltac:(lra)) as B2.
      pose proof (mono y u U3) as B3. pose proof (mono u (u + m1) ltac:(lra)) as B4.
      set (V := fun z : xr => match z with Fin z => prim z | PInf => prim u + a * (1 - Phi (u + m1)) | _ => prim (- u) - a * Phi (- u + m1) end).
      apply Rle_trans with (V PInf - V MInf - test mu a b t).
      - apply Rplus_le_compat_r. rewrite <- (cells_telescope V cuts). apply rsum_le. intros cell Ic.
        destruct (cell_ends cuts cell Ic) as [EF ES]. pose proof (cells_ordered cuts SC cell Ic) as O. destruct cell as [l w]. cbn [fst snd] in *. set (z := s (l, w)).
        unfold first, second. cbn [fst snd].
        pose proof (range (z + m2)) as Z1. pose proof (range z) as Z2. pose proof (range (- u)) as Z3. pose proof (range u) as Z4. pose proof (range (- u + m1)) as Z5. pose proof (range (u + m1)) as Z6.
        assert (K1 : 0 <= a * Phi (- u + m1) * (1 - Phi (z + m2))) by (apply Rmult_le_pos; [apply Rmult_le_pos|]; lra).
        assert (K2 : 0 <= b * Phi (- u) * Phi z) by (apply Rmult_le_pos; [apply Rmult_le_pos|]; lra).
        assert (K3 : 0 <= a * (1 - Phi (u + m1)) * (1 - Phi (z + m2))) by (apply Rmult_le_pos; [apply Rmult_le_pos|]; lra).
        assert (K4 : 0 <= b * (1 - Phi u) * Phi z) by (apply Rmult_le_pos; [apply Rmult_le_pos|]; lra).
        destruct EF as [->|(p & Ip & ->)], ES as [->|(q & Iq & ->)]; cbn [at_end V].
        + pose proof (cell_finite (- u) u z ltac:(lra)) as C. unfold test in *. lra.
        + pose proof (B q Iq). pose proof (cell_finite (- u) q z ltac:(lra)) as C. unfold test in *. lra.
        + pose proof (B p Ip). pose proof (cell_finite p u z ltac:(lra)) as C. unfold test in *. lra.
        + apply xleb_fin in O. apply cell_finite, O.
      - cbn [V]. pose proof (prim_total u ltac:(lra)) as T.
        assert (S : (a + b) * (2 * k) = e) by (unfold k; field; lra).
        assert (a * (1 - Phi (u + m1) + Phi (- u + m1)) <= a * (2 * k)) by (apply Rmult_le_compat_l; lra).
        assert (b * (1 - Phi u + Phi (- u)) <= b * (2 * k)) by (apply Rmult_le_compat_l; lra). lra.
    Qed.
    (** A fine grid of cuts comes as close to the composition as one likes. *)
    Lemma phi_lip x y : Phi y - Phi x <= c * Rabs (y - x).
    Proof.
      assert (P : forall x y, x <= y -> Phi y - Phi x <= c * (y - x)).
      { clear x y. intros x y L. assert (G : Phi y - c * y <= Phi x - c * x); [|lra].
        apply (deriv_nonpos (fun z => Phi z - c * z) (fun z => c * bell z - c * 1)); [|exact L|].
        - intros z. apply derivable_pt_lim_minus; [apply D|]. apply (derivable_pt_lim_scal id c), derivable_pt_lim_id.
        - intros z _. assert (bell z <= 1); [|nra]. unfold bell. rewrite <- exp_0. apply exp_le. nra. }
      destruct (Rle_lt_dec x y) as [L|L].
      - rewrite Rabs_pos_eq by lra. apply P, L.
      - pose proof (mono y x ltac:(lra)). pose proof (Rabs_pos (y - x)). nra.
    Qed.
    Lemma cell_lower u w h : u <= w -> w <= u + h ->
      prim w - prim u - c * (Rabs be * h) * (a * (Phi (w + m1) - Phi (u + m1)) + b * (Phi w - Phi u)) <=
      test m2 (a * (Phi (w + m1) - Phi (u + m1))) (b * (Phi w - Phi u)) (al0 + be * u).
    Proof.
      intros L Lh. set (s := al0 + be * u). set (k := c * (Rabs be * h)).
      set (g := fun x => prim x - (Phi (s + m2) * (a * Phi (x + m1)) - Phi s * (b * Phi x)) - k * (a * Phi (x + m1) + b * Phi x)).
      assert (G : g w <= g u); [|unfold g, test in *; lra].
      apply (deriv_nonpos g (fun x => a * dens Phi c be al1 (x + m1) - b * dens Phi c be al0 x - (Phi (s + m2) * (a * (c * bell (x + m1))) - Phi s * (b * (c * bell x))) - k * (a * (c * bell (x + m1)) + b * (c * bell x)))); [|exact L|].
      - intros x. assert (Da : derivable_pt_lim (fun x => a * Phi (x + m1)) x (a * (c * bell (x + m1)))) by apply (derivable_pt_lim_scal (fun x => Phi (x + m1))), shift_deriv.
        assert (Db : derivable_pt_lim (fun x => b * Phi x) x (b * (c * bell x))) by apply (derivable_pt_lim_scal Phi), D.
        apply derivable_pt_lim_minus; [apply derivable_pt_lim_minus; [apply prim_deriv | apply derivable_pt_lim_minus] |].
        + apply (derivable_pt_lim_scal (fun x => a * Phi (x + m1))), Da.
        + apply (derivable_pt_lim_scal (fun x => b * Phi x)), Db.
        + apply (derivable_pt_lim_scal (fun x => a * Phi (x + m1) + b * Phi x)), (derivable_pt_lim_plus _ _ _ _ _ Da Db).
      - intros x Hx. set (A := a * (c * bell (x + m1))). set (B := b * (c * bell x)).
        assert (PA : 0 < A) by (unfold A; repeat apply Rmult_lt_0_compat; try assumption; apply exp_pos).
        assert (PB : 0 < B) by (unfold B; repeat apply Rmult_lt_0_compat; try assumption; apply exp_pos).
        unfold dens. replace (al1 + be * (x + m1)) with (al0 + be * x + m2) by (unfold al1; ring).
        assert (K : Rabs (be * (x - u)) <= Rabs be * h) by (rewrite Rabs_mult; apply Rmult_le_compat_l; [apply Rabs_pos | rewrite Rabs_pos_eq; lra]).
        pose proof (phi_lip (s + m2) (al0 + be * x + m2)) as L1. replace (al0 + be * x + m2 - (s + m2)) with (be * (x - u)) in L1 by (unfold s; ring).
        pose proof (phi_lip (al0 + be * x) s) as L2. replace (s - (al0 + be * x)) with (- (be * (x - u))) in L2 by (unfold s; ring). rewrite Rabs_Ropp in L2.
        assert (c * Rabs (be * (x - u)) <= k) by (unfold k; apply Rmult_le_compat_l; lra).
        assert (A * (Phi (al0 + be * x + m2) - Phi (s + m2)) <= A * k) by (apply Rmult_le_compat_l; lra).
        assert (B * (Phi s - Phi (al0 + be * x)) <= B * k) by (apply Rmult_le_compat_l; lra).
        subst A B. lra.
    Qed.
    Lemma prim_lower u : 0 <= u -> test mu a b t - a * (1 - Phi (u + m1) + Phi (- u + m1)) <= prim u - prim (- u).
    Proof.
      intros Hu. unfold prim.
      assert (E : forall al l w, RInt (dens Phi c be al) 0 w - RInt (dens Phi c be al) 0 l = conv Phi c l w be al).
      { intros al l w. unfold conv. rewrite <- (RInt_Chasles (dens Phi c be al) 0 l w) by (apply dens_int; assumption). unfold plus; cbn. ring. }
      pose proof (E al1 (- u + m1) (u + m1)) as E1. pose proof (E al0 (- u) u) as E0.
      pose proof (conv_lower Phi HPhi c Hc D (- u + m1) (u + m1) be al1 ltac:(lra)) as U.
      pose proof (conv_upper Phi HPhi c Hc D (- u) u be al0 ltac:(lra)) as L.
      rewrite al1_root in U. rewrite al0_root in L. unfold test.
      set (R1 := RInt (dens Phi c be al1) 0 (u + m1)) in *. set (R2 := RInt (dens Phi c be al1) 0 (- u + m1)) in *.
      set (R3 := RInt (dens Phi c be al0) 0 u) in *. set (R4 := RInt (dens Phi c be al0) 0 (- u)) in *.
      change R in (type of R1). change R in (type of R2). change R in (type of R3). change R in (type of R4).
      assert (a * (Phi (t + mu) - 1 + (Phi (u + m1) - Phi (- u + m1))) <= a * (R1 - R2)) by (apply Rmult_le_compat_l; lra).
      assert (b * (R3 - R4) <= b * Phi t) by (apply Rmult_le_compat_l; lra). lra.
    Qed.
    Definition gain (cell : xr * xr) : R := test m2 (a * first cell) (b * second cell) (thr m2 (a * first cell) (b * second cell)).
    Definition trim (h x : R) : R := prim x - c * (Rabs be * h) * (a * Phi (x + m1) + b * Phi x).
    Lemma strict x y : x < y -> Phi x < Phi y.
    Proof.
      intros L. destruct (MVT_cor2 Phi (fun x => c * bell x) x y L ltac:(intros; apply D)) as (z & E & _).
      assert (0 < c * bell z * (y - x)); [|lra]. apply Rmult_lt_0_compat; [apply Rmult_lt_0_compat; [assumption | apply exp_pos] | lra].
    Qed.
    Lemma gain_finite x h : 0 < h -> trim h (x + h) - trim h x <= gain (Fin x, Fin (x + h)).
    Proof.
      intros Hh. pose proof (cell_lower x (x + h) h ltac:(lra) ltac:(lra)) as C. unfold gain, first, second, trim. cbn [fst snd at_end].
      pose proof (strict x (x + h) ltac:(lra)). pose proof (strict (x + m1) (x + h + m1) ltac:(lra)).
      assert (P : 0 < a * (Phi (x + h + m1) - Phi (x + m1))) by (apply Rmult_lt_0_compat; lra).
      assert (Q : 0 < b * (Phi (x + h) - Phi x)) by (apply Rmult_lt_0_compat; lra).
      pose proof (test_best m2 _ _ (al0 + be * x) H2 P Q). lra.
    Qed.
    Lemma gain_nonneg cell : 0 < first cell -> 0 < second cell -> 0 <= gain cell.
    Proof.
      intros P Q. pose proof (test_peaked m2 (a * first cell) (b * second cell) H2 ltac:(nra) ltac:(nra)) as K.
      pose proof (peaked_best _ _ _ K MInf ltac:(discriminate)) as B. cbn [hend] in B. exact B.
    Qed.
    Fixpoint grid (x h : R) (n : nat) : list R := match n with O => [] | S n => (x + h) :: grid (x + h) h n end.
    Lemma grid_sum h n : 0 < h -> forall x, trim h (x + INR n * h) - trim h x <= rsum gain (cells_at (Fin x) (grid x h n)).
    Proof.
      intros Hh. induction n as [|n IH]; intros x.
      - cbn [grid cells_at rsum INR]. replace (x + 0 * h) with x by ring.
        enough (0 <= gain (Fin x, PInf)) by lra. apply gain_nonneg; unfold first, second; cbn [fst snd at_end].
        + pose proof (strict (x + m1) (x + m1 + 1) ltac:(lra)). pose proof (range (x + m1 + 1)). lra.
        + pose proof (strict x (x + 1) ltac:(lra)). pose proof (range (x + 1)). lra.
      - cbn [grid cells_at rsum]. specialize (IH (x + h)). pose proof (gain_finite x h Hh). rewrite S_INR.
        replace (x + h + INR n * h) with (x + (INR n + 1) * h) in IH by ring. lra.
    Qed.
    Definition cuts_at (k : nat) : list R := - INR k :: grid (- INR k) (/ INR k) (2 * k * k).
    Lemma grid_lower e : 0 < e -> exists K, (0 < K)%nat /\ forall k, (K <= k)%nat -> test mu a b t - e <= rsum gain (cells (cuts_at k)).
    Proof.
      intros He. pose proof HPhi as ((_ & _ & Lo & Up) & _).
      set (d := e / (4 * a)). assert (Hd : 0 < d) by (apply Rdiv_lt_0_compat; lra).
      destruct (Lo d Hd) as [x Hx]. destruct (Up d Hd) as [y Hy].
      set (m := Rmax (m1 - x) (Rmax y (c * Rabs be * (a + b) * (2 / e)))).
      assert (U1 : m1 - x <= m) by apply Rmax_l. assert (U2 : y <= m) by (eapply Rle_trans; [apply Rmax_l | apply Rmax_r]).
      assert (U3 : c * Rabs be * (a + b) * (2 / e) <= m) by (eapply Rle_trans; [apply Rmax_r | apply Rmax_r]).
      destruct (nfloor_ex (Rmax 0 m) (Rmax_l 0 m)) as (K0 & _ & HK0). set (K := S K0). assert (HK : m < INR K) by (unfold K; rewrite S_INR; pose proof (Rmax_r 0 m); lra). clearbody K.
      exists (S K). split; [lia|]. intros k Hk. assert (Pk : INR K + 1 <= INR k) by (rewrite <- S_INR; apply le_INR, Hk). clearbody m.
      assert (Pk0 : 0 < INR k) by (pose proof (pos_INR K); lra). assert (Ih : 0 < / INR k) by (apply Rinv_0_lt_compat; assumption).
      rewrite cells_at_eq. unfold cuts_at. cbn [cells_at rsum].
      pose proof (grid_sum (/ INR k) (2 * k * k) Ih (- INR k)) as S. rewrite !mult_INR in S. replace (INR 2) with 2 in S by reflexivity.
      replace (- INR k + 2 * INR k * INR k * / INR k) with (INR k) in S by (field; lra).
      assert (N : 0 <= gain (MInf, Fin (- INR k))).
      { apply gain_nonneg; unfold first, second; cbn [fst snd at_end].
        - pose proof (strict (- INR k + m1 - 1) (- INR k + m1) ltac:(lra)). pose proof (range (- INR k + m1 - 1)). lra.
        - pose proof (strict (- INR k - 1) (- INR k) ltac:(lra)). pose proof (range (- INR k - 1)). lra. }
      pose proof (prim_lower (INR k) ltac:(lra)) as T. unfold trim in S.
      pose proof (mono (- INR k + m1) x ltac:(lra)) as B1. pose proof (mono y (INR k + m1) ltac:(lra)) as B3.
      assert (A1 : a * (1 - Phi (INR k + m1) + Phi (- INR k + m1)) <= a * (2 * d)) by (apply Rmult_le_compat_l; lra).
      assert (A2 : a * (2 * d) = e / 2) by (unfold d; field; lra).
      set (z := c * (Rabs be * / INR k)) in *. assert (Hz : 0 <= z) by (unfold z; apply Rmult_le_pos; [lra|]; apply Rmult_le_pos; [apply Rabs_pos | lra]).
      assert (Q : z * (a + b) <= e / 2).
      { unfold z. apply (Rmult_le_reg_r (INR k * (2 / e))); [apply Rmult_lt_0_compat; [assumption | apply Rdiv_lt_0_compat; lra]|].
        replace (c * (Rabs be * / INR k) * (a + b) * (INR k * (2 / e))) with (c * Rabs be * (a + b) * (2 / e)) by (field; lra).
        replace (e / 2 * (INR k * (2 / e))) with (INR k) by (field; lra). lra. }
      pose proof (range (INR k + m1)). pose proof (range (- INR k + m1)). pose proof (range (INR k)). pose proof (range (- INR k)).
      assert (a * (Phi (INR k + m1) - Phi (- INR k + m1)) + b * (Phi (INR k) - Phi (- INR k)) <= a + b) by nra.
      assert (z * (a * (Phi (INR k + m1) - Phi (- INR k + m1)) + b * (Phi (INR k) - Phi (- INR k))) <= z * (a + b)) by (apply Rmult_le_compat_l; assumption). lra.
    Qed.
  End Step.
End Gdp.
