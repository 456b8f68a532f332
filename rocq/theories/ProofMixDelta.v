(** get_delta_for_epsilon of a mixture of Gaussians. *)
From Coq Require Import Lra.
From Verif Require Import Base XReal Exn TypesAdjacency SpecDP SpecMech SpecMixture ModelRdp ModelMake ModelLog ModelMech ModelMixture ProofDP ProofPeak ProofLog ProofMix ProofMixLaw ProofMixInv.
Local Arguments Rltb : simpl never.
Local Arguments Rleb : simpl never.
Local Arguments Reqb : simpl never.

Lemma map_res_Forall2 {A B} (f : A -> res B) l : forall bs, map_res f l = Ok bs -> Forall2 (fun a b => f a = Ok b) l bs.
Proof.
  induction l as [|a l IH]; intros bs; cbn [map_res]; [intros [= <-]; constructor|].
  destruct (f a) as [b|] eqn:E; [|discriminate]. cbn [bind]. destruct (map_res f l) as [r|]; [|discriminate]. cbn [bind]. intros [= <-]. constructor; [exact E | apply IH; reflexivity].
Qed.

Lemma Forall2_in {A B} (P Q : A -> B -> Prop) l m : Forall2 P l m -> (forall a b, In a l -> P a b -> Q a b) -> Forall2 Q l m.
Proof. induction 1 as [|a b l m H F IH]; intros G; constructor; [apply G; [left; reflexivity | exact H] | apply IH; intros; apply G; [right; assumption | assumption]]. Qed.

Section Delta.
  Context (Phi : R -> R) (HPhi : normal_cdf Phi) (sigma : R) (Hs : 0 < sigma) (comps : list (R * R)).
  Hypothesis ok : forall c, In c comps -> 0 <= fst c /\ 0 < snd c.
  Hypothesis total : rsum snd comps = 1.
  Hypothesis some : exists c, In c comps /\ 0 < fst c.
  Notation q := (positive_part comps).
  Notation mloss := (mloss sigma comps).
  Notation upper := (upper Phi sigma comps).
  Notation lower := (lower Phi sigma comps).
  Notation possible := (possible comps).

  Lemma end_eq adj : end_loss comps adj = if Rltb q 1 then Fin (loss_limit adj q) else match adj with ADD => PInf | REMOVE => MInf end.
  Proof. unfold end_loss, log_rest. rewrite (prob_eq comps ok total some). destruct adj, (Rltb q 1); reflexivity. Qed.
  Lemma finite_eq adj l : is_finite_loss comps adj l = true <-> ~ near_end adj q l.
  Proof.
    unfold is_finite_loss, near_end. rewrite end_eq. destruct (Rltb_spec q 1) as [L|L].
    - cbn [np_isclose]. destruct (Rleb_spec (Rabs (l - loss_limit adj q)) (1 / 10 ^ 8 + 1 / 10 ^ 5 * Rabs (loss_limit adj q))); cbn [negb]; intuition (try discriminate; auto).
    - destruct adj; cbn; intuition lra.
  Qed.
  Lemma possible_eq adj l : possible adj l <-> loss_possible adj q l.
  Proof.
    pose proof (q_le comps ok total). unfold ProofMixInv.possible, loss_possible, ratio_of, loss_limit. destruct adj; split.
    - intros P L. apply ln_increasing in P; [|lra]. rewrite ln_exp in P. lra.
    - intros P. destruct (Rle_lt_or_eq_dec q 1) as [L|E]; [assumption| |].
      + rewrite <- (exp_ln (1 - q)) by lra. apply exp_increasing. specialize (P L). lra.
      + rewrite E, Rminus_diag_eq by reflexivity. apply exp_pos.
    - intros P L. apply ln_increasing in P; [|lra]. rewrite ln_exp in P. lra.
    - intros P. destruct (Rle_lt_or_eq_dec q 1) as [L|E]; [assumption| |].
      + rewrite <- (exp_ln (1 - q)) by lra. apply exp_increasing. specialize (P L). lra.
      + rewrite E, Rminus_diag_eq by reflexivity. apply exp_pos.
  Qed.
  Lemma needs_eq adj e : needs_cutoff comps adj e = true <-> loss_possible adj q e.
  Proof.
    pose proof (q_le comps ok total). unfold needs_cutoff, loss_possible, loss_limit. rewrite (prob_eq comps ok total some). destruct (Reqb_spec q 1) as [E|N]; [intuition lra|].
    destruct adj; [destruct (Rltb_spec e (- ln (1 - q))) | destruct (Rltb_spec (ln (1 - q)) e)]; intuition (try discriminate; try lra); exfalso; assert (q < 1) by lra; intuition lra.
  Qed.

  Definition good_cut (adj : adjacency) (prec l : R) (x : xr) : Prop :=
    (near_end adj q l -> x = match adj with ADD => MInf | REMOVE => PInf end) /\
    (~ near_end adj q l -> exists y c0 c1, x = Fin y /\ c0 <= c1 <= c0 + prec /\ mloss adj c1 <= l <= mloss adj c0 /\ c1 - prec <= y <= c1).
  Lemma inverse_ok adj fuel ls prec xs : 0 < prec -> mx_inverse_losses fuel sigma comps adj ls prec = Ok xs ->
    one_sensitivity comps \/ anchored adj q ls -> Forall2 (good_cut adj prec) ls xs.
  Proof.
    intros Hp H HO. unfold mx_inverse_losses in H. destruct (nondecreasing ls) eqn:ND; [|discriminate]. cbn [negb] in H.
    destruct ls as [|l0 ls']; [injection H as <-; constructor|]. set (ls := l0 :: ls') in *.
    match type of H with (if ?c then _ else _) = _ => destruct c eqn:RG; [discriminate|] end.
    destruct (filter (is_finite_loss comps adj) ls) as [|f0 fs'] eqn:EF; [discriminate|]. rewrite <- EF in H. set (fs := filter (is_finite_loss comps adj) ls) in *.
    assert (NF : fs <> []) by (rewrite EF; discriminate). clear EF.
    set (lo := match adj with ADD => l0 | REMOVE => np_min fs end) in *. set (hi := match adj with ADD => np_max fs | REMOVE => last ls l0 end) in *.
    destruct (search_bounds sigma comps adj prec lo hi) as [b|] eqn:EB; [|discriminate]. cbn [bind] in H.
    assert (FS : forall l, In l fs <-> In l ls /\ ~ near_end adj q l).
    { intros l. unfold fs. rewrite filter_In, finite_eq. reflexivity. }
    assert (SO : forall l, In l ls -> l0 <= l <= last ls l0).
    { intros l I. pose proof (nondecreasing_ends ls ND l I) as K. unfold ls in *. rewrite (last_default _ l0 l) by discriminate. exact K. }
    assert (PO : forall l, In l fs -> loss_possible adj q l).
    { intros l I. apply FS in I as (I & NE). intros L. rewrite end_eq, (Rltb_true q 1 L) in RG. pose proof (SO l I) as K. destruct adj.
      - cbn [xltb] in RG. destruct (Rltb_spec (loss_limit ADD q) (last ls l0)) as [|C]; [discriminate|]. destruct (Rtotal_order l (loss_limit ADD q)) as [|[E|]]; [assumption | | lra].
        exfalso. apply NE. split; [exact L|]. rewrite E, Rminus_diag_eq, Rabs_R0 by reflexivity. pose proof (Rabs_pos (loss_limit ADD q)). nra.
      - cbn [xleb] in RG. destruct (Rleb_spec l0 (loss_limit REMOVE q)) as [|C]; [discriminate|]. lra. }
    destruct (np_min_spec fs NF) as (MI & ML). destruct (np_max_spec fs NF) as (XI & XL).
    assert (LO : forall l, In l fs -> lo <= l) by (intros l I; unfold lo; destruct adj; [apply SO, FS, I | apply ML, I]).
    assert (HI : forall l, In l fs -> l <= hi) by (intros l I; unfold hi; destruct adj; [apply XL, I | apply SO, FS, I]).
    assert (Plo : possible adj lo).
    { apply possible_eq. unfold lo. destruct adj; [|apply PO, MI]. intros L. pose proof (PO _ XI L). pose proof (LO _ XI). unfold lo in *. lra. }
    assert (Phi' : possible adj hi).
    { apply possible_eq. unfold hi. destruct adj; [apply PO, XI|]. intros L. pose proof (PO _ MI L). pose proof (HI _ MI). unfold hi in *. lra. }
    assert (HO' : one_sensitivity comps \/ match adj with REMOVE => lo <= 0 | ADD => 0 <= hi end).
    { destruct HO as [O|(e & I & (_ & NE) & S)]; [left; exact O | right]. assert (J : In e fs) by (apply FS; split; assumption). pose proof (LO e J). pose proof (HI e J). destruct adj; lra. }
    destruct (bounds_ok sigma Hs comps ok total some adj prec lo hi b Hp Plo Phi' EB HO') as (BB & B1 & B0).
    apply map_res_Forall2 in H.
    assert (G : forall l x, In l ls -> (if is_finite_loss comps adj l then let? x := range_search sigma comps adj fuel prec l (fst b) (snd b) in Ok (Fin x) else Ok match adj with ADD => MInf | REMOVE => PInf end) = Ok x -> good_cut adj prec l x).
    { intros l x I E. pose proof (finite_eq adj l) as F. destruct (is_finite_loss comps adj l).
      - assert (NE : ~ near_end adj q l) by (apply F; reflexivity). split; [intros K; contradiction|]. intros _. assert (J : In l fs) by (apply FS; split; assumption).
        destruct (range_search sigma comps adj fuel prec l (fst b) (snd b)) as [y|] eqn:ES; [|discriminate]. injection E as <-.
        pose proof (LO l J). pose proof (HI l J). destruct (search_ok sigma Hs comps ok total adj prec l fuel Hp (fst b) (snd b) y ltac:(lra) BB ES) as (c0 & c1 & K). exists y, c0, c1. split; [reflexivity | exact K].
      - injection E as <-. split; [reflexivity|]. intros NE. apply F in NE. discriminate. }
    exact (Forall2_in _ _ _ _ H (fun l x => G l x)).
  Qed.

  (** ** The values of the laws at the cutoffs *)
  Lemma cdf_fin x : mx_cdf Phi sigma (Fin x) = law Phi sigma x.
  Proof. reflexivity. Qed.
  Lemma mu_fin adj x : mx_mu_upper_cdf Phi sigma comps adj (Fin x) = upper adj x.
  Proof. rewrite upper_eq. destruct adj; [reflexivity|]. cbn [mx_mu_upper_cdf xadd]. apply rsum_ext. intros c _. rewrite cdf_fin. ring. Qed.
  Lemma lower_fin adj x : mx_mu_lower_log_cdf Phi sigma comps adj (Fin x) = np_log (Fin (lower adj x)).
  Proof.
    destruct adj; [|reflexivity]. cbn [mx_mu_lower_log_cdf xadd]. do 2 f_equal. unfold ProofMixLaw.lower. cbn [mixture_lower]. unfold mixed. apply rsum_ext. intros c _. rewrite cdf_fin. unfold Rminus. ring.
  Qed.
  Lemma exp_log e y : 0 <= y -> xexp (xadd (Fin e) (np_log (Fin y))) = Fin (exp e * y).
  Proof.
    intros H. destruct (Rle_lt_or_eq_dec 0 y H) as [P|<-].
    - rewrite np_log_pos by exact P. cbn [xadd xexp]. rewrite exp_plus, exp_ln by exact P. reflexivity.
    - rewrite np_log_0. cbn [xadd xexp]. f_equal. ring.
  Qed.
  Lemma cutoff_fin adj e x : cutoff_delta Phi sigma comps adj e (Fin x) = Rmin 1 (Rmax 0 (gap (upper adj) (lower adj) (exp e) x)).
  Proof.
    unfold cutoff_delta. rewrite mu_fin, lower_fin. destruct (lower_cdf Phi HPhi sigma Hs comps ok total adj) as (B & _). rewrite exp_log by apply B. reflexivity.
  Qed.
  Lemma cutoff_end adj e : cutoff_delta Phi sigma comps adj e (match adj with ADD => MInf | REMOVE => PInf end) = Rmin 1 (Rmax 0 (match adj with ADD => 0 | REMOVE => 1 - exp e end)).
  Proof.
    unfold cutoff_delta. destruct adj.
    - unfold mx_mu_upper_cdf, mx_mu_lower_log_cdf. replace (rsum (fun c => mx_cdf Phi sigma (xadd MInf (Fin (- fst c))) * snd c) comps) with 0.
      2:{ change (0 = rsum (fun c : R * R => 0 * snd c) comps). rewrite rsum_scal. ring. }
      rewrite exp_log by lra. change (mx_cdf Phi sigma MInf) with 0. cbn [xsub clip01]. unfold xsub. cbn [xneg xadd clip01]. f_equal. f_equal. ring.
    - unfold mx_mu_upper_cdf, mx_mu_lower_log_cdf, log_cdf. change (mx_cdf Phi sigma PInf) with 1. rewrite exp_log by lra.
      replace (rsum (fun c : R * R => mx_cdf Phi sigma (xadd PInf (Fin (fst c))) * snd c) comps) with 1.
      2:{ change (1 = rsum (fun c : R * R => 1 * snd c) comps). rewrite rsum_scal, total. ring. }
      unfold xsub. cbn [xneg xadd clip01]. f_equal. f_equal. ring.
  Qed.

  (** ** At and beyond the limits of the loss *)
  Lemma rest_mono adj x y : xleb x y = true ->
    match adj with
    | REMOVE => at_end (upper adj) x - (1 - q) * at_end (lower adj) x <= at_end (upper adj) y - (1 - q) * at_end (lower adj) y
    | ADD => at_end (lower adj) x - (1 - q) * at_end (upper adj) x <= at_end (lower adj) y - (1 - q) * at_end (upper adj) y
    end.
  Proof.
    pose proof (q_le comps ok total) as Q1. pose proof (q_pos comps ok some) as Q0. destruct (law_cdf Phi HPhi sigma Hs) as (B & M & _).
    assert (SP : forall f : R -> R, (forall c, In c comps -> 0 <= fst c) -> forall x, rsum (fun c => snd c * f (x + fst c)) comps = (1 - q) * f x + rsum (fun c => snd c * f (x + fst c)) (pos_comps comps) /\ rsum (fun c => snd c * f (x - fst c)) comps = (1 - q) * f x + rsum (fun c => snd c * f (x - fst c)) (pos_comps comps)).
    { intros f NN z. unfold positive_part, pos_comps. rewrite !rsum_filter. rewrite <- total at 1 2. rewrite <- !rsum_minus, <- !rsum_scal_r, <- !rsum_plus.
      split; apply rsum_ext; intros c I; destruct (Rltb_spec 0 (fst c)); try ring; pose proof (NN c I); assert (E : fst c = 0) by lra; rewrite E; rewrite ?Rplus_0_r, ?Rminus_0_r; ring. }
    assert (NN : forall c, In c comps -> 0 <= fst c) by (intros c I; apply ok, I).
    assert (QS : rsum snd (pos_comps comps) = q) by reflexivity.
    assert (ST : forall g : R -> R * R -> R, (forall z c, In c comps -> 0 <= g z c <= 1) -> (forall z z' c, z <= z' -> g z c <= g z' c) ->
              (forall z, 0 <= rsum (fun c => snd c * g z c) (pos_comps comps) <= q) /\ (forall z z', z <= z' -> rsum (fun c => snd c * g z c) (pos_comps comps) <= rsum (fun c => snd c * g z' c) (pos_comps comps))).
    { intros g Bg Mg. split.
      - intros z. split; [apply rsum_nonneg; intros c I; apply pos_in in I as (I & _); apply Rmult_le_pos; [apply Rlt_le, ok, I | apply Bg, I]|].
        rewrite <- QS. apply rsum_le. intros c I. apply pos_in in I as (I & _). pose proof (Bg z c I). destruct (ok c I). nra.
      - intros z z' L. apply rsum_le. intros c I. apply pos_in in I as (I & _). apply Rmult_le_compat_l; [apply Rlt_le, ok, I | apply Mg, L]. }
    destruct adj.
    - destruct (ST (fun z c => law Phi sigma (z - fst c)) ltac:(intros; apply B) ltac:(intros; apply M; lra)) as (R1 & R2).
      assert (EQ : forall z, lower ADD z - (1 - q) * upper ADD z = rsum (fun c => snd c * law Phi sigma (z - fst c)) (pos_comps comps)).
      { intros z. destruct (SP (law Phi sigma) NN z) as (_ & K). cbn [ProofMixLaw.lower mixture_lower ProofMixLaw.upper mixture_upper]. unfold ProofMixLaw.lower, ProofMixLaw.upper. cbn. unfold mixed. rewrite K. ring. }
      intros L. destruct x as [a| | |], y as [b| | |]; cbn [at_end] in *; try discriminate L; try lra.
      + rewrite !EQ. apply R2, xleb_fin, L.
      + rewrite EQ. pose proof (R1 a). lra.
      + rewrite EQ. pose proof (R1 b). lra.
    - destruct (ST (fun z c => law Phi sigma (z + fst c)) ltac:(intros; apply B) ltac:(intros; apply M; lra)) as (R1 & R2).
      assert (EQ : forall z, upper REMOVE z - (1 - q) * lower REMOVE z = rsum (fun c => snd c * law Phi sigma (z + fst c)) (pos_comps comps)).
      { intros z. destruct (SP (law Phi sigma) NN z) as (K & _). rewrite upper_eq, K. unfold ProofMixLaw.lower. cbn. ring. }
      intros L. destruct x as [a| | |], y as [b| | |]; cbn [at_end] in *; try discriminate L; try lra.
      + rewrite !EQ. apply R2, xleb_fin, L.
      + rewrite EQ. pose proof (R1 a). lra.
      + rewrite EQ. pose proof (R1 b). lra.
  Qed.
  Definition end_delta (adj : adjacency) (e : R) : R := Rmin 1 (Rmax 0 (match adj with ADD => 0 | REMOVE => 1 - exp e end)).
  Lemma rsum_cells_at_end P cuts : rsum (fun c => at_end P (snd c) - at_end P (fst c)) (cells cuts) = 1.
  Proof. rewrite (cells_telescope (at_end P)). cbn. ring. Qed.
  Lemma limit_sum adj e cuts : StronglySorted Rlt cuts ->
    hockey_stick (observe (upper adj) (lower adj) cuts) e <= match adj with ADD => Rmax 0 (1 - exp e * (1 - q)) | REMOVE => Rmax q (1 - exp e) end.
  Proof.
    intros S. unfold hockey_stick. cbn [outs prP prQ observe]. pose proof (exp_pos e) as Pe. pose proof (q_le comps ok total) as Q1.
    pose proof (upper_cdf Phi HPhi sigma Hs comps ok total adj) as CU. pose proof (lower_cdf Phi HPhi sigma Hs comps ok total adj) as CL.
    destruct adj.
    - set (k := Rmax 0 (1 - exp e * (1 - q))). replace k with (rsum (fun c => k * (at_end (upper ADD) (snd c) - at_end (upper ADD) (fst c))) (cells cuts)) by (rewrite rsum_scal, rsum_cells_at_end; ring).
      apply rsum_le. intros c I. pose proof (cells_ordered _ S _ I) as L. pose proof (rest_mono ADD _ _ L) as RM. cbn match in RM.
      pose proof (at_end_mono _ CU _ _ L). apply pos_le_bound; [apply Rmult_le_pos; [apply Rmax_l | lra]|].
      pose proof (Rmax_r 0 (1 - exp e * (1 - q))). fold k in H0. set (DU := at_end (upper ADD) (snd c) - at_end (upper ADD) (fst c)) in *. set (DL := at_end (lower ADD) (snd c) - at_end (lower ADD) (fst c)) in *.
      assert ((1 - q) * DU <= DL) by (unfold DU, DL; lra). assert (exp e * ((1 - q) * DU) <= exp e * DL) by (apply Rmult_le_compat_l; lra). assert ((1 - exp e * (1 - q)) * DU <= k * DU) by (apply Rmult_le_compat_r; unfold DU; lra). lra.
    - set (k := Rmax q (1 - exp e)).
      destruct (Rle_lt_dec (1 - q) (exp e)) as [T|T].
      + apply Rle_trans with q; [|apply Rmax_l]. replace q with (rsum (fun c => (at_end (upper REMOVE) (snd c) - (1 - q) * at_end (lower REMOVE) (snd c)) - (at_end (upper REMOVE) (fst c) - (1 - q) * at_end (lower REMOVE) (fst c))) (cells cuts)).
        2:{ rewrite (cells_telescope (fun x => at_end (upper REMOVE) x - (1 - q) * at_end (lower REMOVE) x)). cbn. ring. }
        apply rsum_le. intros c I. pose proof (cells_ordered _ S _ I) as L. pose proof (rest_mono REMOVE _ _ L) as RM. cbn match in RM. pose proof (at_end_mono _ CL _ _ L).
        apply pos_le_bound; [lra|]. nra.
      + apply Rle_trans with (1 - exp e); [|apply Rmax_r]. replace (1 - exp e) with (rsum (fun c => (at_end (upper REMOVE) (snd c) - exp e * at_end (lower REMOVE) (snd c)) - (at_end (upper REMOVE) (fst c) - exp e * at_end (lower REMOVE) (fst c))) (cells cuts)).
        2:{ rewrite (cells_telescope (fun x => at_end (upper REMOVE) x - exp e * at_end (lower REMOVE) x)). cbn. ring. }
        apply rsum_le. intros c I. pose proof (cells_ordered _ S _ I) as L. pose proof (rest_mono REMOVE _ _ L) as RM. cbn match in RM. pose proof (at_end_mono _ CL _ _ L).
        apply pos_le_bound; nra.
  Qed.
  Lemma end_below adj e : exists cuts, StronglySorted Rlt cuts /\ end_delta adj e <= hockey_stick (observe (upper adj) (lower adj) cuts) e.
  Proof.
    exists []. split; [constructor|]. assert (V : valid (observe (upper adj) (lower adj) [])) by (apply observe_valid; [apply upper_cdf | apply lower_cdf | constructor]; assumption).
    rewrite hockey_hs. pose proof (hs_nonneg (observe (upper adj) (lower adj) []) 1 (exp e)). pose proof (hs_ge _ 1 (exp e) V).
    unfold end_delta. eapply Rle_trans; [apply Rmin_r|]. apply Rmax_lub; [assumption|]. destruct adj; [assumption | lra].
  Qed.
  Lemma clip_max x : Rmin 1 (Rmax 0 x) <= x \/ x <= 0.
  Proof. unfold Rmin, Rmax. destruct (Rle_dec 0 x), (Rle_dec 1 _); lra. Qed.
  Lemma end_beyond adj e : ~ loss_possible adj q e -> nearly_divergence (upper adj) (lower adj) e (end_delta adj e) 0.
  Proof.
    intros NP. split; [|apply end_below]. intros cuts S. eapply Rle_trans; [apply limit_sum, S|]. pose proof (q_pos comps ok some) as Q0. pose proof (q_le comps ok total) as Q1.
    rewrite <- possible_eq in NP. unfold ProofMixInv.possible, ratio_of in NP. unfold end_delta. pose proof (exp_pos e). destruct adj.
    - assert (exp (- e) <= 1 - q) by lra. rewrite exp_Ropp in *. assert (K : exp e * / exp e <= exp e * (1 - q)) by (apply Rmult_le_compat_l; lra). rewrite Rinv_r in K by lra.
      rewrite (Rmax_left 0 (1 - _)) by lra. rewrite (Rmax_left 0 0), Rmin_right by lra. lra.
    - rewrite (Rmax_right q), (Rmax_right 0), Rmin_right by lra. lra.
  Qed.
  Lemma end_near adj e : loss_possible adj q e -> near_end adj q e -> nearly_divergence (upper adj) (lower adj) e (end_delta adj e) (limit_error q).
  Proof.
    intros PO (L & NE). split; [|apply end_below]. intros cuts S. eapply Rle_trans; [apply limit_sum, S|]. pose proof (q_pos comps ok some) as Q0.
    apply possible_eq in PO. unfold ProofMixInv.possible, ratio_of in PO. unfold end_delta, limit_error. rewrite (Rltb_true q 1 L). pose proof (exp_pos e).
    set (tol := 1 / 10 ^ 8 + 1 / 10 ^ 5 * Rabs (ln (1 - q))). assert (T : Rabs (e - loss_limit adj q) <= tol). { destruct adj; cbn [loss_limit] in NE |- *; [rewrite Rabs_Ropp in NE|]; exact NE. }
    assert (T0 : 0 <= tol) by (pose proof (Rabs_pos (e - loss_limit adj q)); lra). assert (T1 : 1 + tol <= exp tol) by apply exp_ineq1_le.
    pose proof (Rle_abs (e - loss_limit adj q)). pose proof (Rle_abs (- (e - loss_limit adj q))). rewrite Rabs_Ropp in *. unfold loss_limit in *. destruct adj.
    - rewrite (Rmax_left 0 0), (Rmin_right 1 0) by lra. apply Rmax_lub; [lra|].
      assert (exp (- tol) <= exp e * (1 - q)). { rewrite <- (exp_ln (1 - q)) by lra. rewrite <- exp_plus. apply exp_le. lra. }
      pose proof (exp_ineq1_le (- tol)). lra.
    - assert (E1 : exp e <= exp tol * (1 - q)). { rewrite <- (exp_ln (1 - q)) by lra. rewrite <- exp_plus. apply exp_le. lra. }
      assert (E2 : exp tol * (1 - q) - (1 - q) <= exp tol - 1) by nra.
      assert (1 - exp e <= Rmin 1 (Rmax 0 (1 - exp e))) by (apply Rmin_glb; [lra | apply Rmax_r]). apply Rmax_lub; lra.
  Qed.

  (** ** One epsilon *)
  Context (smax : R) (Hmax : forall c, In c comps -> fst c <= smax).
  Lemma nearly_weaken P Q e d err err' : err <= err' -> nearly_divergence P Q e d err -> nearly_divergence P Q e d err'.
  Proof. intros L (A & B). split; [intros cuts S; specialize (A cuts S); lra | exact B]. Qed.
  Lemma nearly_clip P Q e d err : d <= 1 -> nearly_divergence P Q e d err -> nearly_divergence P Q e (Rmin 1 (Rmax 0 d)) err.
  Proof.
    intros D1 (A & cuts & S & B). rewrite Rmin_right by (apply Rmax_lub; lra). split.
    - intros cuts' S'. specialize (A cuts' S'). pose proof (Rmax_r 0 d). lra.
    - exists cuts. split; [exact S|]. apply Rmax_lub; [|exact B]. rewrite hockey_hs. apply hs_nonneg.
  Qed.
  Notation err := (mixture_error sigma smax q).
  Lemma cut_delta adj e x : loss_possible adj q e -> good_cut adj (1 / 10 ^ 6) e x -> nearly_divergence (upper adj) (lower adj) e (cutoff_delta Phi sigma comps adj e x) err.
  Proof.
    intros PO (G1 & G2). destruct (Classical_Prop.classic (near_end adj q e)) as [N|N].
    - rewrite (G1 N), cutoff_end. apply nearly_weaken with (limit_error q); [apply Rmax_r | apply end_near; assumption].
    - destruct (G2 N) as (y & c0 & c1 & -> & K1 & K2 & K3). rewrite cutoff_fin. apply nearly_clip.
      + unfold gap. destruct (upper_cdf Phi HPhi sigma Hs comps ok total adj) as (BU & _). destruct (lower_cdf Phi HPhi sigma Hs comps ok total adj) as (BL & _). pose proof (BU y). pose proof (BL y). pose proof (exp_pos e). nra.
      + apply nearly_weaken with (cutoff_error sigma smax); [apply Rmax_l|]. unfold cutoff_error.
        replace (smax * (1 / 10 ^ 6) / (sigma * sigma)) with (smax / (sigma * sigma) * (1 / 10 ^ 6)) by (field; lra).
        apply (mix_cutoff Phi HPhi sigma Hs comps ok total smax Hmax) with (b0 := c0) (b1 := c1); try assumption. lra.
  Qed.
  Lemma err_nonneg : 0 <= err.
  Proof.
    eapply Rle_trans; [|apply Rmax_l]. unfold cutoff_error. pose proof (smax_nonneg comps ok total smax Hmax).
    apply Rmult_le_pos; [|apply Rle_mult_inv_pos; lra]. pose proof (exp_ineq1_le (smax * (1 / 10 ^ 6) / (sigma * sigma))). assert (0 <= smax * (1 / 10 ^ 6) / (sigma * sigma)) by (apply Rle_mult_inv_pos; [apply Rmult_le_pos; lra | nra]). lra.
  Qed.
  Lemma other_delta_ok adj e : ~ loss_possible adj q e -> nearly_divergence (upper adj) (lower adj) e (clip_R (other_delta adj e)) err.
  Proof.
    intros NP. apply nearly_weaken with 0; [apply err_nonneg|]. replace (clip_R (other_delta adj e)) with (end_delta adj e); [apply end_beyond, NP|].
    unfold end_delta, clip_R, other_delta, expm1. destruct adj; [reflexivity|]. do 2 f_equal. ring.
  Qed.

  (** ** The list *)
  Lemma scatter_ok adj eps : forall xs, Forall2 (good_cut adj (1 / 10 ^ 6)) (filter (needs_cutoff comps adj) eps) xs ->
    Forall2 (fun e d => nearly_divergence (upper adj) (lower adj) e d err) eps (scatter Phi sigma comps adj eps xs).
  Proof.
    induction eps as [|e eps IH]; intros xs F; cbn [filter scatter] in *; [constructor|]. pose proof (needs_eq adj e) as NE. destruct (needs_cutoff comps adj e).
    - inversion F as [|? x ? xs' G F']; subst. constructor; [apply cut_delta; [apply NE; reflexivity | exact G] | apply IH, F'].
    - constructor; [|apply IH, F]. apply other_delta_ok. intros K. apply NE in K. discriminate.
  Qed.
  Lemma hockey_mono E e e' : valid E -> e <= e' -> hockey_stick E e' <= hockey_stick E e.
  Proof.
    intros (V & _) L. unfold hockey_stick. apply rsum_le. intros a I. apply pos_le. destruct (V a I) as [_ VQ]. pose proof (Rmult_le_compat_r _ _ _ VQ (exp_le _ _ L)). lra.
  Qed.
  Lemma running_ok P Q er eps ds : is_cdf P -> is_cdf Q -> nondecreasing eps = true -> Forall2 (fun e d => nearly_divergence P Q e d er) eps ds ->
    Forall2 (fun e d => nearly_divergence P Q e d er) eps (running_max ds).
  Proof.
    intros CP CQ ND F. induction F as [|e d eps ds H F IH]; cbn [running_max]; [constructor|].
    assert (ND' : nondecreasing eps = true) by (destruct eps; [reflexivity|]; cbn [nondecreasing] in ND; apply Bool.andb_true_iff in ND; apply ND).
    specialize (IH ND'). destruct (running_max ds) as [|m r]; [inversion IH; subst; constructor; [exact H | constructor]|].
    constructor; [|exact IH]. inversion IH as [|e' ? eps' ? Hm]; subst. cbn [nondecreasing] in ND. apply Bool.andb_true_iff in ND as [L _]. destruct (Rleb_spec e e') as [L'|]; [|discriminate].
    destruct H as (A & cuts & S & B). split.
    - intros c' S'. specialize (A c' S'). pose proof (Rmax_l d m). lra.
    - destruct (Rle_lt_dec m d); [exists cuts; rewrite Rmax_left by lra; split; assumption|]. destruct Hm as (_ & cm & Sm & Bm). exists cm. split; [exact Sm|]. rewrite Rmax_right by lra.
      eapply Rle_trans; [exact Bm|]. apply hockey_mono; [apply observe_valid; assumption | exact L'].
  Qed.
  Lemma proper_needs adj e : proper_epsilon adj q e -> needs_cutoff comps adj e = true.
  Proof. intros (P & _). apply needs_eq, P. Qed.
  Lemma deltas_ok adj fuel eps ds : mx_deltas Phi fuel sigma comps adj eps = Ok ds -> one_sensitivity comps \/ anchored adj q eps ->
    Forall2 (fun e d => nearly_divergence (upper adj) (lower adj) e d err) eps ds.
  Proof.
    unfold mx_deltas, raw_deltas. destruct (nondecreasing eps) eqn:ND; [|discriminate]. cbn [negb].
    destruct (mx_inverse_losses fuel sigma comps adj (filter (needs_cutoff comps adj) eps) (1 / 10 ^ 6)) as [xs|] eqn:EI; [|discriminate]. cbn [bind]. intros [= <-] HO.
    apply running_ok; [apply upper_cdf; assumption | apply lower_cdf; assumption | exact ND |]. apply scatter_ok. apply (inverse_ok adj fuel); [lra | exact EI|].
    destruct HO as [O|(e & I & P & S)]; [left; exact O | right]. exists e. split; [apply filter_In; split; [exact I | apply proper_needs, P] | split; assumption].
  Qed.
  Lemma delta_ok adj fuel e d : mx_delta Phi fuel sigma comps adj e = Ok d -> one_sensitivity comps \/ match adj with REMOVE => e <= 0 | ADD => 0 <= e end ->
    nearly_divergence (upper adj) (lower adj) e d err.
  Proof.
    unfold mx_delta, raw_deltas. cbn [nondecreasing negb]. 
    destruct (mx_inverse_losses fuel sigma comps adj (filter (needs_cutoff comps adj) [e]) (1 / 10 ^ 6)) as [xs|] eqn:EI; [|discriminate]. cbn [bind]. intros H HO.
    assert (F : Forall2 (fun e d => nearly_divergence (upper adj) (lower adj) e d err) [e] (scatter Phi sigma comps adj [e] xs)).
    { apply scatter_ok. destruct (needs_cutoff comps adj e) eqn:NE; cbn [filter] in *; rewrite NE in *.
      2:{ cbn in EI. injection EI as <-. constructor. }
      destruct (Classical_Prop.classic (near_end adj q e)) as [N|N].
      - exfalso. unfold mx_inverse_losses in EI. cbn [nondecreasing negb last filter] in EI. destruct (is_finite_loss comps adj e) eqn:FE; [apply finite_eq in FE; contradiction|].
        destruct (match adj with ADD => _ | REMOVE => _ end); discriminate.
      - apply (inverse_ok adj fuel); [lra | exact EI|]. destruct HO as [O|S]; [left; exact O | right]. exists e. split; [left; reflexivity|]. split; [split; [apply needs_eq, NE | exact N] | exact S]. }
    destruct (scatter Phi sigma comps adj [e] xs) as [|d' r]; [discriminate|]. injection H as <-. inversion F as [|? ? ? ? G _]; subst. exact G.
  Qed.
End Delta.
