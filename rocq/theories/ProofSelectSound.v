(** The RDP of repeated selection, as computed, bounds the Renyi divergences of the selection. *)
From Verif Require Import Base XReal Exn SpecDP SpecRenyi SpecRdp SpecSelect ModelRdp ProofDP ProofShape ProofRenyi ProofObserve ProofRefine
  ProofConv ProofGamma ProofSelect ProofSelectRdp ProofSelectLaw ProofSelectEnd.
Local Arguments Rltb : simpl never.
Local Arguments Rleb : simpl never.
Local Arguments Reqb : simpl never.

(** ** The success probability used is not larger than the true one *)
Lemma expm1_zero n : forall k, expm1_terms n k 0 0 = 0.
Proof. induction n as [|n IH]; intros k; [reflexivity|]. cbn [expm1_terms]. unfold Rdiv. rewrite !Rmult_0_l, IH. ring. Qed.
Lemma expm1_at_0 n : expm1_terms (S n) 1 1 0 = 1.
Proof. cbn [expm1_terms INR]. rewrite Rmult_0_r, expm1_zero. field. Qed.
Lemma logx_at_1 n : rsum (fun k => (1 - 1) ^ (k - 1) / INR k) (seq 1 (S n)) = 1.
Proof.
  cbn [seq rsum]. rewrite rsum_zero; [cbn; field|]. intros k Ik. apply in_seq in Ik. replace (1 - 1) with 0 by ring. rewrite pow_ne_zero by lia. unfold Rdiv. ring.
Qed.
Lemma tnb_mean_at_1 s m : 0 <= s -> tnb_mean 1 s = Ok m -> m = 1.
Proof.
  intros Hs H. unfold tnb_mean in H. rewrite Rltb_false, Rleb_false, Rltb_false in H by lra. cbn [orb] in H.
  assert (L : logx_over_xm1 1 = 1) by (unfold logx_over_xm1; rewrite !Rltb_false by lra; exact (logx_at_1 98)).
  assert (X : expm1_over_x (s * ln 1) = 1) by (rewrite ln_1, Rmult_0_r; unfold expm1_over_x; rewrite !Rltb_false by lra; exact (expm1_at_0 98)).
  rewrite L, X in H. destruct (Reqb s 1); [|destruct (Reqb s 0)]; injection H as <-; field.
Qed.
Lemma true_mean_gt s g : 0 <= s -> 0 < g < 1 -> 1 < tnb_true_mean g s.
Proof.
  intros Hs Hg. eapply Rlt_le_trans; [|apply true_mean_low; assumption]. assert (L : ln g < 0) by (rewrite <- ln_1; apply ln_increasing; lra).
  assert (D : 0 < g * - ln g) by (apply Rmult_lt_0_compat; lra).
  apply (Rmult_lt_reg_r (g * - ln g)); [exact D|]. unfold Rdiv. rewrite Rmult_assoc, Rinv_l, Rmult_1_l, Rmult_1_r by lra.
  assert (X : 1 + - ln g < exp (- ln g)) by (apply exp_ineq1; lra). rewrite exp_Ropp, exp_ln in X by lra.
  apply (Rmult_lt_compat_l g) in X; [|lra]. rewrite Rinv_r in X by lra. lra.
Qed.
Lemma gamma_le fuel s mean tol gm g m : 0 <= s -> 0 <= tol -> gamma_tnb fuel s (Fin mean) tol = Ok gm -> 0 < g <= 1 ->
  infinite_sum (fun k => INR k * tnb_runs s g k) m -> m <= mean -> (m = 1 \/ s = 1 \/ m * (1 + 6 / 10 ^ 90) <= mean) ->
  0 < gm <= g /\ m = tnb_m s g.
Proof.
  intros Hs Ht H Hg M Lm C. pose proof (gamma_sound fuel s mean tol gm Ht H) as (G1 & (mm & Hm & Lmm) & _).
  assert (Em : m = tnb_m s g) by (eapply uniqueness_sum; [exact M | apply tnb_law_mean; assumption]).
  split; [|exact Em]. split; [lra|]. unfold tnb_m in Em. destruct (Reqb_spec g 1) as [->|Ng]; [lra|].
  pose proof (true_mean_gt s g Hs ltac:(lra)) as Gt. rewrite <- Em in Gt. destruct C as [C|[C|C]]; [lra| |].
  - subst s. unfold gamma_tnb in H. rewrite Rltb_false in H by lra. destruct (xltb (Fin mean) (Fin 1)); [discriminate|]. rewrite Reqb_true in H by reflexivity. injection H as <-.
    assert (X : m = / g). { rewrite Em. unfold tnb_true_mean. rewrite Reqb_false, Rpower_1 by lra. field. lra. }
    rewrite X in Lm. unfold Rdiv. rewrite Rmult_1_l. replace g with (/ / g) by (apply Rinv_inv). apply Rinv_le_contravar; [apply Rinv_0_lt_compat; lra | exact Lm].
  - destruct (Rle_lt_dec gm g) as [|Lt]; [assumption | exfalso]. destruct (Req_dec gm 1) as [->|Ngm].
    + apply tnb_mean_at_1 in Hm; [|exact Hs]. lra.
    + destruct (tnb_rel gm s mm Hs ltac:(lra) Hm) as (d & Ed & Hd & Pm). pose proof (true_mean_anti g gm s Hs ltac:(lra) ltac:(lra) ltac:(lra)) as An.
      rewrite <- Em, Ed in An. apply Rabs_le_between in Hd. pose proof tiny as [T0 T1]. set (e := 1 / 10 ^ 90) in *.
      replace (5 / 10 ^ 90) with (5 * e) in Hd by (unfold e, Rdiv; ring). replace (6 / 10 ^ 90) with (6 * e) in C by (unfold e, Rdiv; ring).
      assert (X : m * (1 + 6 * e) * (1 - 5 * e) <= m).
      { eapply Rle_trans; [|exact An]. apply Rmult_le_compat; [nra | lra | lra | lra]. }
      nra.
Qed.

(** ** Enforcing monotonicity *)
Lemma pymin_cases x y : pymin x y = x \/ pymin x y = y.
Proof. unfold pymin. destruct (xltb y x); auto. Qed.
Lemma pymin_list_in l m : pymin_list l = Ok m -> In m l.
Proof.
  destruct l as [|x l]; [discriminate|]. intros [= <-]. revert x. induction l as [|y l IH]; intros x; cbn [fold_left]; [left; reflexivity|].
  destruct (pymin_cases x y) as [-> | ->]; [destruct (IH x) as [H|H]; [left; exact H | right; right; exact H] | right; apply IH].
Qed.
Lemma monotone_sound orders E : valid E -> forall todo done v, Forall (fun ax => order_ok (fst ax) /\ rdp_bounded E (fst ax) (snd ax)) (done ++ todo) ->
  rs_monotone orders done todo = Ok v -> rdp_curve (map fst (done ++ todo)) v E.
Proof.
  intros V. induction todo as [|[a x] todo IH]; intros done v F; cbn [rs_monotone].
  - intros [= <-]. rewrite app_nil_r in *. split; [exact V|]. split; [rewrite !map_length; reflexivity|]. intros a r I.
    rewrite Forall_forall in F. assert (I' : In (a, r) done).
    { clear -I. induction done as [|[b y] l IH]; [contradiction|]. cbn [map combine fst snd] in I. destruct I as [[= -> ->]|I]; [left; reflexivity | right; apply IH, I]. }
    apply (F _ I').
  - destruct (pymin_list _) as [m|] eqn:P; [|discriminate]. cbn [bind]. intros H. apply pymin_list_in in P. apply in_map_iff in P. destruct P as ((b & y) & Ey & I).
    cbn [snd] in Ey. subst y. apply filter_In in I. destruct I as [I L]. cbn [fst] in L. rewrite Forall_forall in F. pose proof (F _ I) as [Ob Bb]. cbn [fst snd] in Ob, Bb.
    assert (Oa : order_ok a) by (apply (F (a, x)), in_or_app; right; left; reflexivity).
    replace (map fst (done ++ (a, x) :: todo)) with (map fst ((done ++ [(a, m)]) ++ todo)) by (rewrite <- app_assoc, !map_app; reflexivity).
    apply IH; [|exact H]. apply Forall_forall. intros ax Ia. rewrite <- app_assoc in Ia. apply in_app_or in Ia. destruct Ia as [Ia|[<-|Ia]].
    + apply F, in_or_app. left. exact Ia.
    + cbn [fst snd]. split; [exact Oa|]. destruct Bb as [B1 B2]. split; eapply bounded_order; try eassumption. apply valid_swap, V.
    + apply F, in_or_app. right. right. exact Ia.
Qed.

(** ** One direction *)
Lemma renyi_le E a r r' : renyi_bounded E (Fin a) (Fin r) -> r <= r' -> renyi_bounded E (Fin a) (Fin r').
Proof. intros (AC & H1 & H2) L. split; [exact AC|]. split; lra. Qed.

Lemma tnb_valid pk s g E A : 0 <= s -> 0 < g <= 1 -> (forall k, pk k = tnb_runs s g k) -> valid E -> selects pk E A -> valid A.
Proof.
  intros Hs Hg Hpk V S. destruct (selected pk (tnb_f s g) E A) as (rank & sP & sQ & N & -> & P0 & Q0 & PY); try assumption.
  { intros x Hx. eapply infsum_ext; [|apply tnb_pgf; assumption]. intros k. cbn beta. rewrite Hpk. reflexivity. }
  eapply (selected_valid (tnb_f s g) (tnb_f' s g)); try eassumption; try (intros; apply tnb_deriv; assumption); try (intros; apply tnb_f'_pos; assumption).
  - apply tnb_f1; assumption.
  - rewrite tnb_f0. lra.
Qed.
Lemma tnb_dir pk s g E A mean c0 a r : 0 <= s -> 0 < g <= 1 -> (forall k, pk k = tnb_runs s g k) -> tnb_m s g <= mean -> valid E -> selects pk E A ->
  (exists ahat rhat, renyi_bounded (swap E) ahat (Fin rhat) /\
     match ahat with Fin a => 1 < a /\ (1 - 1 / a) * rhat - ln g / a <= c0 | PInf => rhat <= c0 | _ => False end) ->
  xltb (Fin 1) a = true -> renyi_bounded E a (Fin r) -> renyi_bounded A a (xadd (xadd (Fin r) (xdiv (xlog (Fin mean)) (xsub a (Fin 1)))) (Fin ((1 + s) * c0))).
Proof.
  intros Hs Hg Hpk Hm V S (ahat & rhat & B & C) Ha H. destruct (selected pk (tnb_f s g) E A) as (rank & sP & sQ & N & -> & P0 & Q0 & PY); try assumption.
  { intros x Hx. eapply infsum_ext; [|apply tnb_pgf; assumption]. intros k. cbn beta. rewrite Hpk. reflexivity. }
  assert (F1 : tnb_f s g 1 = 1) by (apply tnb_f1; assumption). assert (F0 : 0 <= tnb_f s g 0) by (rewrite tnb_f0; lra).
  assert (Df : forall x, 0 <= x <= 1 -> derivable_pt_lim (tnb_f s g) x (tnb_f' s g x)) by (intros; apply tnb_deriv; assumption).
  assert (Pf : forall x, 0 <= x <= 1 -> 0 < tnb_f' s g x) by (intros; apply tnb_f'_pos; assumption).
  pose proof (tnb_mean_pos s g Hs Hg) as MP.
  destruct a as [a| | |]; try contradiction; try discriminate.
  - cbn in Ha. destruct (Rltb_spec 1 a) as [Ha'|]; [|discriminate]. cbn [xsub xneg xadd xlog xdiv]. rewrite Reqb_false by lra. cbn [xadd].
    eapply renyi_le; [eapply (selected_ratio (tnb_f s g) (tnb_f' s g)) with (rank := rank) (m := tnb_m s g) (c := (1 + s) * c0); try eassumption; [apply tnb_f0|]|].
    + intros y u I U. split; [|apply (tnb_ratio s g Hs Hg E V rank N ahat rhat); assumption].
      apply tnb_f'_le; try assumption. pose proof V as (V1 & SP & SQ). destruct (below_range rank (prP E) (outs E) y u (fun x Ix => proj1 (V1 x Ix)) SP N I U).
      assert (0 <= u * prP E y) by (apply Rmult_le_pos; [lra | apply (V1 y I)]). lra.
    + replace (a + - (1)) with (a - 1) by ring. assert (ln (tnb_m s g) / (a - 1) <= ln mean / (a - 1)); [|lra].
      apply Rmult_le_compat_r; [left; apply Rinv_0_lt_compat; lra | apply ln_le_mono; assumption].
  - cbn [xsub xneg xadd xlog xdiv]. rewrite Rplus_0_r.
    eapply (selected_ratio_inf (tnb_f s g) (tnb_f' s g)) with (rank := rank); try eassumption; [left; apply tnb_f0|].
    intros y u I U. apply (tnb_ratio s g Hs Hg E V rank N ahat rhat); assumption.
Qed.
Lemma poisson_valid pk mu E A : 1 <= mu -> (forall k, pk k = poisson_runs mu k) -> valid E -> selects pk E A -> valid A.
Proof.
  intros Hmu Hpk V S. destruct (selected pk (po_f mu) E A) as (rank & sP & sQ & N & -> & P0 & Q0 & PY); try assumption.
  { intros x _. eapply infsum_ext; [|apply poisson_pgf]. intros k. cbn beta. rewrite Hpk. reflexivity. }
  eapply po_valid; eassumption.
Qed.
Lemma poisson_dir pk mu E A a r d eps : 1 <= mu -> (forall k, pk k = poisson_runs mu k) -> valid E -> selects pk E A -> xleb a (Fin 1) = false ->
  renyi_bounded E a (Fin r) -> xlog1p (xdiv (Fin 1) (xsub a (Fin 1))) = Fin eps -> dp (swap E) eps d -> 0 <= d ->
  renyi_bounded A a (xadd (xadd (Fin r) (xmul (Fin mu) (Fin d))) (xdiv (xlog (Fin mu)) (xsub a (Fin 1)))).
Proof.
  intros Hmu Hpk V S Ha H He D Hd. destruct (selected pk (po_f mu) E A) as (rank & sP & sQ & N & -> & P0 & Q0 & PY); try assumption.
  { intros x _. eapply infsum_ext; [|apply poisson_pgf]. intros k. cbn beta. rewrite Hpk. reflexivity. }
  destruct a as [a| | |]; try contradiction; try discriminate; cbn [xsub xneg xadd xlog xdiv xmul] in *.
  - cbn in Ha. destruct (Rleb_spec a 1); [discriminate|]. rewrite Reqb_false in * by lra. cbn [xlog1p xadd xlog] in *. unfold xlog1p in He. cbn [xadd xlog] in He. injection He as <-.
    eapply po_order; try eassumption. lra.
  - unfold xlog1p in He. cbn [xadd xlog] in He. rewrite Rplus_0_r, ln_1 in He. injection He as <-. rewrite Rplus_0_r. eapply po_inf; eassumption.
Qed.

(** ** Both directions, all orders *)
Lemma bounded_vals E a r : rdp_bounded E a r -> (exists x, r = Fin x) \/ r = PInf.
Proof. intros [H _]. destruct r; cbn in H; try contradiction; eauto. Qed.
Theorem select_sound fuel orders rdp mean shape v E A pk :
  (forall a, In a orders -> order_ok a) -> (shape <> PInf -> ~ In (Fin 1) orders) ->
  rdp_curve orders rdp E -> rdp_repeat_and_select fuel orders rdp (Fin mean) shape = Ok v ->
  runs_law shape mean pk -> selects pk E A -> rdp_curve orders v A.
Proof.
  intros HO H1 C H L S. pose proof C as (V & Len & B). unfold rdp_repeat_and_select in H.
  destruct (xltb shape (Fin 0)) eqn:S0; [discriminate|]. cbn [xltb] in H. destruct (Rltb_spec mean 1) as [|M1]; [discriminate|].
  destruct (negb _); [discriminate|].
  destruct shape as [s| | |]; try contradiction.
  - (* truncated negative binomial *)
    cbn in S0. destruct (Rltb_spec s 0) as [|Hs]; [discriminate|]. assert (Hs' : 0 <= s) by lra. clear Hs S0. specialize (H1 ltac:(discriminate)).
    destruct (gamma_tnb _ _ _ _) as [gm|] eqn:G; [|discriminate]. cbn [bind] in H. destruct (Rleb gm 0); [discriminate|].
    destruct L as (g & m & Hg & Hpk & Mn & Lm & Cm).
    assert (Mn' : infinite_sum (fun k => INR k * tnb_runs s g k) m) by (eapply infsum_ext; [|exact Mn]; intros k; cbn beta; rewrite Hpk; reflexivity).
    assert (T9 : 0 <= 1 / 10 ^ 9) by (apply Rmult_le_pos; [lra | left; apply Rinv_0_lt_compat, pow_lt; lra]).
    destruct (gamma_le fuel s mean (1 / 10 ^ 9) gm g m Hs' T9 G Hg Mn' Lm Cm) as [Gm Em]. rewrite Em in Lm.
    assert (LG : ln gm <= ln g) by (apply ln_le_mono; lra).
    pose proof (tnb_valid pk s g E A Hs' Hg Hpk V S) as VA.
    set (val := fun ar : xr * xr => xsub (xmul (xsub (Fin 1) (xdiv (Fin 1) (fst ar))) (snd ar)) (xdiv (Fin (ln gm)) (fst ar))) in H.
    assert (VAL : forall ar, In ar (combine orders rdp) -> val ar = PInf \/ exists c0 rhat, val ar = Fin c0 /\ snd ar = Fin rhat /\
       match fst ar with Fin a => 1 < a /\ (1 - 1 / a) * rhat - ln g / a <= c0 | PInf => rhat <= c0 | _ => False end).
    { intros [a r] I. pose proof (HO a (in_combine_l _ _ _ _ I)) as Oa. unfold val. cbn [fst snd].
      assert (X : xsub (Fin 1) (xdiv (Fin 1) a) = Fin (match a with Fin a => 1 - 1 / a | _ => 1 - 0 end)).
      { destruct a as [a| | |]; try contradiction; cbn in Oa; cbn [xdiv]; [rewrite Reqb_false by lra|]; reflexivity. }
      rewrite X. assert (Y : xdiv (Fin (ln gm)) a = Fin (match a with Fin a => ln gm / a | _ => 0 end)).
      { destruct a as [a| | |]; try contradiction; cbn in Oa; cbn [xdiv]; [rewrite Reqb_false by lra|]; reflexivity. }
      rewrite Y. assert (Z : a = PInf \/ exists x, a = Fin x /\ 1 < x).
      { destruct a as [a| | |]; try contradiction; [right; exists a; split; [reflexivity|] | left; reflexivity]. cbn in Oa. destruct (Req_dec a 1) as [->|]; [|lra]. exfalso. apply H1. eapply in_combine_l, I. }
      destruct (bounded_vals E a r (B a r I)) as [[x ->]| ->].
      - right. cbn [xmul xsub xneg xadd]. eexists _, x. split; [reflexivity|]. split; [reflexivity|]. destruct Z as [-> |(y & -> & Hy)]; [lra|]. split; [exact Hy|].
        assert (ln gm / y <= ln g / y) by (apply Rmult_le_compat_r; [left; apply Rinv_0_lt_compat; lra | exact LG]). lra.
      - left. cbn [xmul]. unfold inf_times. rewrite Rltb_true; [reflexivity|]. destruct Z as [-> |(y & -> & Hy)]; [lra|].
        enough (1 / y < 1) by lra. apply (Rmult_lt_reg_r y); [lra|]. unfold Rdiv. rewrite Rmult_assoc, Rinv_l by lra. lra. }
    unfold npmin in H. destruct (argmin (map (fun x => (x, x)) (map val (combine orders rdp)))) as [b|] eqn:AM; [|discriminate]. cbn [bind] in H.
    apply argmin_spec in AM; [|intros x I; rewrite map_map in I; apply in_map_iff in I; destruct I as (ar & <- & I); cbn [fst]; destruct (VAL ar I) as [-> |(c0 & rhat & -> & _)]; discriminate].
    destruct AM as [Ib _]. rewrite map_map in Ib. apply in_map_iff in Ib. destruct Ib as ([ahat rh] & <- & Ib). cbn [fst] in H.
    assert (OUT : forall a r, In (a, r) (combine orders rdp) -> rdp_bounded A a (rs_tnb_order (Fin mean) (xmul (Fin (1 + s)) (val (ahat, rh))) (a, r))).
    { intros a r I. unfold rs_tnb_order. destruct (xltb (Fin 1) a) eqn:La; [|split; exact Logic.I].
      destruct (bounded_vals E a r (B a r I)) as [[x ->]| ->].
      - destruct (VAL _ Ib) as [-> |(c0 & rhat & -> & Er & Cc)].
        + cbn [xmul]. unfold inf_times. rewrite Rltb_true by lra. assert (Z : exists y, xdiv (xlog (Fin mean)) (xsub a (Fin 1)) = Fin y).
          { destruct a as [a| | |]; try discriminate; cbn in La; cbn [xsub xneg xadd xlog xdiv]; [|eauto]. destruct (Rltb_spec 1 a); [|discriminate]. rewrite Reqb_false by lra. eauto. }
          destruct Z as [y ->]. split; exact Logic.I.
        + cbn [fst snd] in Er, Cc. subst rh. pose proof (B _ _ Ib) as [B1 B2]. pose proof (B _ _ I) as [D1 D2]. cbn [xmul]. split.
          * eapply (tnb_dir pk s g E A); try eassumption. exists ahat, rhat. split; assumption.
          * eapply (tnb_dir pk s g (swap E) (swap A)); try eassumption; [apply valid_swap, V | apply selects_swap, S|]. exists ahat, rhat. split; [destruct E; exact B1 | exact Cc].
      - assert (Z : xadd PInf (xdiv (xlog (Fin mean)) (xsub a (Fin 1))) = PInf).
        { destruct a as [a| | |]; try discriminate; cbn in La; cbn [xsub xneg xadd xlog xdiv]; [|reflexivity]. destruct (Rltb_spec 1 a); [|discriminate]. rewrite Reqb_false by lra. reflexivity. }
        rewrite Z. destruct (VAL _ Ib) as [-> |(c0 & rhat & -> & _)]; cbn [xmul]; [unfold inf_times; rewrite Rltb_true by lra|]; split; exact Logic.I. }
    assert (Lo : length orders = length (map (rs_tnb_order (Fin mean) (xmul (Fin (1 + s)) (val (ahat, rh)))) (combine orders rdp))) by (rewrite map_length, combine_length; lia).
    apply (monotone_sound orders A VA) in H.
    + cbn [app] in H. replace (map fst (combine orders (map (rs_tnb_order (Fin mean) (xmul (Fin (1 + s)) (val (ahat, rh)))) (combine orders rdp)))) with orders in H; [exact H|].
      revert Lo. generalize (map (rs_tnb_order (Fin mean) (xmul (Fin (1 + s)) (val (ahat, rh)))) (combine orders rdp)). clear. intros l. revert l.
      induction orders as [|a o IH]; intros [|x l] L; try discriminate; [reflexivity|]. cbn. f_equal. apply IH. cbn in L. lia.
    + cbn [app]. apply Forall_forall. intros [a x] I. cbn [fst snd].
      assert (X : exists r, In (a, r) (combine orders rdp) /\ x = rs_tnb_order (Fin mean) (xmul (Fin (1 + s)) (val (ahat, rh))) (a, r)).
      { clear -I Len. revert rdp Len I. induction orders as [|b o IH]; intros [|y rdp] Len I; try discriminate; [contradiction|]. cbn [combine map] in I.
        destruct I as [I|I]; [injection I as <- <-; exists y; split; [left|]; reflexivity|]. destruct (IH rdp ltac:(cbn in Len; lia) I) as (r & I1 & I2). exists r. split; [right; exact I1 | exact I2]. }
      destruct X as (r & Ir & ->). split; [apply HO; eapply in_combine_l, Ir | apply OUT, Ir].
  - (* Poisson *)
    cbn [runs_law] in L. pose proof (poisson_valid pk mean E A ltac:(lra) L V S) as VA. apply map_res_ok in H.
    split; [exact VA|]. split. { clear -H Len. remember (rs_poisson_order orders rdp (Fin mean)) as F eqn:E. clear E. revert rdp v Len H. induction orders as [|b o IH]; intros [|y rdp] v Len H; try discriminate; inversion H; subst; [reflexivity|]. cbn. f_equal. eapply IH; [|eassumption]. cbn in Len. lia. }
    intros a x I. assert (X : exists r, In (a, r) (combine orders rdp) /\ rs_poisson_order orders rdp (Fin mean) (a, r) = Ok x).
    { clear -I H Len. remember (rs_poisson_order orders rdp (Fin mean)) as F eqn:E. clear E. revert rdp v Len H I. induction orders as [|b o IH]; intros [|y rdp] v Len H I; try discriminate; inversion H; subst; [contradiction|].
      cbn [combine] in I. destruct I as [[= <- <-]|I]; [exists y; split; [left; reflexivity | assumption]|].
      destruct (IH rdp _ ltac:(cbn in Len; lia) ltac:(eassumption) I) as (r & I1 & I2). exists r. split; [right; exact I1 | exact I2]. }
    destruct X as (r & Ir & X). unfold rs_poisson_order in X. destruct (xleb a (Fin 1)) eqn:La; [injection X as <-; split; exact Logic.I|].
    pose proof (HO a (in_combine_l _ _ _ _ Ir)) as Oa.
    assert (EPS : exists eps, xlog1p (xdiv (Fin 1) (xsub a (Fin 1))) = Fin eps).
    { destruct a as [a| | |]; try contradiction; cbn in La; cbn [xsub xneg xadd xdiv]; [destruct (Rleb_spec a 1); [discriminate|]; rewrite Reqb_false by lra|]; eexists; reflexivity. }
    destruct EPS as [eps EPS]. rewrite EPS in X. destruct (compute_delta orders rdp (Fin eps)) as [[d o]|] eqn:Dl; [|discriminate]. cbn [bind fst] in X. apply (f_equal (fun t => match t with Ok z => z | _ => PInf end)) in X. cbn beta iota in X. rewrite <- X. clear X I x.
    assert (Go : good_orders orders). { intros b Ib. specialize (HO b Ib). destruct b as [b| | |]; try contradiction; [exists b | exists 0]; auto. }
    destruct (delta_sound _ _ _ _ _ _ C Go Dl) as (y & -> & Ry & D1 & D2).
    assert (LM : exists z, xdiv (xlog (Fin mean)) (xsub a (Fin 1)) = Fin z).
    { destruct a as [a| | |]; try contradiction; cbn in La; cbn [xsub xneg xadd xlog xdiv]; [destruct (Rleb_spec a 1); [discriminate|]; rewrite Reqb_false by lra|]; eexists; reflexivity. }
    destruct (bounded_vals E a r (B a r Ir)) as [[x ->]| ->].
    + pose proof (B _ _ Ir) as [B1 B2]. split.
      * eapply (poisson_dir pk mean E A); try eassumption; lra.
      * eapply (poisson_dir pk mean (swap E) (swap A)); try eassumption; [lra | apply valid_swap, V | apply selects_swap, S | lra].
    + destruct LM as [z ->]. cbn [xmul xadd]. split; exact Logic.I.
Qed.
