(** The construction from a mixture of Gaussians returns. *)
From Coq Require Import Lra.
From Verif Require Import Base XReal Exn PyDict TypesAdjacency ModelPmf ModelPld ModelMake ModelMech ModelSearch ModelMixture SpecDP SpecPmf SpecPld SpecMech SpecMake SpecClasses SpecConstruct SpecSearch SpecNoiseAcc SpecMixture
  ProofDP ProofDict ProofPmf ProofPld ProofDots ProofMake ProofTwo ProofPeak ProofTailClasses ProofSearch ProofConstructEx ProofMix ProofMixLaw ProofMixInv ProofMixDelta ProofMixDom ProofMixPld.
Local Arguments Rltb : simpl never.
Local Arguments Rleb : simpl never.
Local Arguments Reqb : simpl never.

(** ** Runs with enough fuel *)
Definition yields {A} (r : nat -> res A) (P : A -> Prop) : Prop := exists N a, P a /\ forall fuel, (N <= fuel)%nat -> r fuel = Ok a.
Lemma yields_ret {A} (a : A) (P : A -> Prop) : P a -> yields (fun _ => Ok a) P.
Proof. intros H. exists O, a. split; [exact H | reflexivity]. Qed.
Lemma yields_bind {A B} (r : nat -> res A) (k : nat -> A -> res B) P Q : yields r P -> (forall a, P a -> yields (fun fuel => k fuel a) Q) ->
  yields (fun fuel => let? a := r fuel in k fuel a) Q.
Proof.
  intros (N & a & Pa & H) HK. destruct (HK a Pa) as (M & b & Qb & HB). exists (max N M), b. split; [exact Qb|]. intros fuel Hf. rewrite H by lia. cbn [bind]. apply HB. lia.
Qed.
Lemma yields_weaken {A} (r : nat -> res A) (P Q : A -> Prop) : (forall a, P a -> Q a) -> yields r P -> yields r Q.
Proof. intros W (N & a & Pa & H). exists N, a. split; [apply W, Pa | exact H]. Qed.
Lemma yields_map {A B} (f : nat -> A -> res B) (P : A -> B -> Prop) l : (forall a, In a l -> yields (fun fuel => f fuel a) (P a)) ->
  yields (fun fuel => map_res (f fuel) l) (Forall2 P l).
Proof.
  induction l as [|a l IH]; intros H; cbn [map_res]; [apply yields_ret; constructor|].
  apply (yields_bind _ _ (P a)); [apply H; left; reflexivity|]. intros b Pb. apply (yields_bind _ _ (Forall2 P l)); [apply IH; intros; apply H; right; assumption|].
  intros bs F. apply yields_ret. constructor; assumption.
Qed.

(** ** The searches *)
Lemma search_loop_more func value inc disc t : forall fuel l u r, search_loop func value inc fuel disc t l u = Ok r -> search_loop func value inc (S fuel) disc t l u = Ok r.
Proof.
  induction fuel as [|fuel IH]; intros l u r H; [discriminate|]. cbn [search_loop] in H |- *. destruct (xltb t (xsub u l)); [|exact H].
  set (mid := if disc then _ else _) in *. destruct (func mid) as [v|]; [|discriminate]. cbn [bind] in *. destruct (check value inc v); apply IH; exact H.
Qed.
Lemma search_loop_most func value inc disc t fuel l u r : search_loop func value inc fuel disc t l u = Ok r -> forall fuel', (fuel <= fuel')%nat -> search_loop func value inc fuel' disc t l u = Ok r.
Proof. intros H fuel' L. induction L as [|fuel' L IH]; [exact H | apply search_loop_more, IH]. Qed.

(** an increasing function, searched between two points *)
Lemma inverse_yields (g : xr -> R) value l u t : l <= u -> 0 < t -> g (Fin l) <= value ->
  yields (fun fuel => inverse_monotone_function (fun x => Ok (Fin (g x))) (Fin value) true fuel (mkSearch (Fin l) (Fin u) None (Fin t) false))
    (fun r => exists x y, r = Some (Fin x) /\ l <= x /\ x <= y /\ y <= u /\ y <= x + t /\ g (Fin x) <= value /\ (y = u \/ value < g (Fin y))).
Proof.
  intros LU Ht Hv. set (func := fun x => Ok (Fin (g x))).
  destruct (pow2_above ((u - l) / t)) as [n Hn].
  assert (W : u - l <= t * 2 ^ n). { apply (Rmult_le_compat_l t) in Hn; [|lra]. replace (t * ((u - l) / t)) with (u - l) in Hn by (field; lra). exact Hn. }
  destruct (search_loop_total func (Fin value) true false t Ht ltac:(discriminate) n l u ltac:(intros; eexists; reflexivity) W LU ltac:(discriminate) (S n) (Nat.lt_succ_diag_r n)) as (r & Hr).
  destruct (search_loop_ok func (Fin value) true (S n) false t l u r (fun x => g (Fin x) <= value) (fun y => y = u \/ value < g (Fin y)) Hr LU) as (x & y & -> & A1 & A2 & A3 & A4 & A5 & A6 & _).
  - exact Hv.
  - left. reflexivity.
  - discriminate.
  - intros m v E C. unfold func in E. injection E as <-. cbn [check xleb] in C. destruct (Rleb_spec (g (Fin m)) value); [assumption | discriminate].
  - intros m v E C. unfold func in E. injection E as <-. cbn [check xleb] in C. destruct (Rleb_spec (g (Fin m)) value); [discriminate | right; lra].
  - lra.
  - exists (S n), (Some (Fin x)). split.
    + exists x, y. repeat split; try assumption. lra.
    + intros fuel Hf. unfold inverse_monotone_function. cbn [sp_lower sp_upper sp_guess sp_tol sp_discrete xeqb bind].
      unfold func. cbn [bind xltb]. rewrite Rltb_false by exact Hv. fold func. cbn [bind fst snd]. rewrite (search_loop_most _ _ _ _ _ _ _ _ _ Hr fuel Hf). reflexivity.
Qed.

Section Total.
  Context (Phi ppf : R -> R) (HPhi : normal_cdf Phi) (HQ : quantile_of Phi ppf) (sigma : R) (Hs : 0 < sigma) (comps : list (R * R)).
  Hypothesis ok : forall c, In c comps -> 0 <= fst c /\ 0 < snd c.
  Hypothesis total : rsum snd comps = 1.
  Hypothesis some : exists c, In c comps /\ 0 < fst c.
  Notation q := (positive_part comps).
  Notation smax := (mx_max_sens comps).

  Lemma range_yields adj prec l : 0 < prec -> forall b0 b1, b0 <= b1 ->
    yields (fun fuel => range_search sigma comps adj fuel prec l b0 b1) (fun x => b0 - prec <= x <= b1).
  Proof.
    intros Hp. assert (K : forall n b0 b1, b0 <= b1 -> b1 - b0 <= prec * 2 ^ n -> exists x, b0 - prec <= x <= b1 /\ forall fuel, (n <= fuel)%nat -> range_search sigma comps adj fuel prec l b0 b1 = Ok x).
    { induction n as [|n IH]; intros b0 b1 L W.
      - exists (IZR (Rfloor (b1 / prec)) * prec). assert (b1 - prec <= IZR (Rfloor (b1 / prec)) * prec <= b1) by (apply floor_near, Hp). split; [lra|]. intros fuel _. cbn [pow] in W.
        destruct fuel; cbn [range_search]; rewrite Rleb_true by lra; reflexivity.
      - cbn [pow] in W. destruct (Rle_lt_dec (b1 - b0) prec) as [S|S].
        + exists (IZR (Rfloor (b1 / prec)) * prec). assert (b1 - prec <= IZR (Rfloor (b1 / prec)) * prec <= b1) by (apply floor_near, Hp). split; [lra|]. intros fuel _. 
          destruct fuel; cbn [range_search]; rewrite Rleb_true by lra; reflexivity.
        + destruct (Rltb l (mx_loss sigma comps adj ((b0 + b1) / 2))) eqn:B.
          * destruct (IH ((b0 + b1) / 2) b1 ltac:(lra) ltac:(lra)) as (x & R & H). exists x. split; [lra|]. intros fuel Hf. destruct fuel as [|fuel]; [lia|]. cbn [range_search]. rewrite Rleb_false by lra. cbv zeta. rewrite B. apply H. lia.
          * destruct (IH b0 ((b0 + b1) / 2) ltac:(lra) ltac:(lra)) as (x & R & H). exists x. split; [lra|]. intros fuel Hf. destruct fuel as [|fuel]; [lia|]. cbn [range_search]. rewrite Rleb_false by lra. cbv zeta. rewrite B. apply H. lia. }
    intros b0 b1 L. destruct (pow2_above ((b1 - b0) / prec)) as [n Hn]. destruct (K n b0 b1 L) as (x & R & H).
    { apply (Rmult_le_compat_l prec) in Hn; [|lra]. replace (prec * ((b1 - b0) / prec)) with (b1 - b0) in Hn by (field; lra). exact Hn. }
    exists n, x. split; [exact R | exact H].
  Qed.

  Lemma inverse_losses_yield adj ls prec : 0 < prec -> nondecreasing ls = true -> (forall l, In l ls -> loss_possible adj q l) ->
    ls = [] \/ (exists l, In l ls /\ ~ near_end adj q l) ->
    yields (fun fuel => mx_inverse_losses fuel sigma comps adj ls prec) (fun xs => length xs = length ls).
  Proof.
    intros Hp ND PO HE. unfold mx_inverse_losses. rewrite ND. cbn [negb]. destruct ls as [|l0 ls']; [apply yields_ret; reflexivity|]. destruct HE as [E|HE]; [discriminate|].
    set (ls := l0 :: ls') in *. assert (LI : In (last ls l0) ls) by (apply last_in; discriminate).
    assert (RG : (match adj with ADD => xltb (end_loss comps adj) (Fin (last ls l0)) | REMOVE => xleb (Fin l0) (end_loss comps adj) end) = false).
    { rewrite (end_eq comps ok total some). destruct (Rltb_spec q 1) as [L|L].
      - destruct adj; cbn [xltb xleb].
        + apply Rltb_false. pose proof (PO _ LI L). cbn beta iota in *. lra.
        + apply Rleb_false. pose proof (PO l0 (or_introl eq_refl) L). cbn beta iota in *. lra.
      - destruct adj; reflexivity. }
    rewrite RG. destruct (filter (is_finite_loss comps adj) ls) as [|f0 fs'] eqn:EF.
    { exfalso. destruct HE as (l & I & N). assert (K : In l (filter (is_finite_loss comps adj) ls)) by (apply filter_In; split; [exact I | apply (finite_eq comps ok total some), N]). rewrite EF in K. destruct K. }
    rewrite <- EF. set (fs := filter (is_finite_loss comps adj) ls) in *. assert (NF : fs <> []) by (rewrite EF; discriminate).
    destruct (np_min_spec fs NF) as (MI & _). destruct (np_max_spec fs NF) as (XI & _).
    assert (FI : forall l, In l fs -> In l ls) by (intros l I; apply filter_In in I; apply I).
    set (lo := match adj with ADD => l0 | REMOVE => np_min fs end). set (hi := match adj with ADD => np_max fs | REMOVE => last ls l0 end).
    assert (Plo : possible comps adj lo) by (apply (possible_eq comps ok total), PO; unfold lo; destruct adj; [left; reflexivity | apply FI, MI]).
    assert (Phi' : possible comps adj hi) by (apply (possible_eq comps ok total), PO; unfold hi; destruct adj; [apply FI, XI | exact LI]).
    destruct (sens_range comps some) as (S1 & _).
    unfold search_bounds. rewrite !(bound_eq sigma comps ok total some) by (try assumption; lra). cbn [bind].
    match goal with |- context [np_min ?L] => match L with [_; _; _; _] => set (cand := L) end end.
    assert (NE : cand <> []) by discriminate. cbn [fst snd].
    set (b0 := IZR (Rfloor (np_min cand / prec)) * prec). set (b1 := IZR (Rceil (np_max cand / prec)) * prec).
    assert (B01 : b0 <= b1).
    { destruct (np_min_spec cand NE) as (_ & Mi). destruct (np_max_spec cand NE) as (I & _). pose proof (Mi _ I).
      unfold b0, b1. pose proof (Rfloor_spec (np_min cand / prec)) as [F _]. apply (Rmult_le_compat_r prec) in F; [|lra]. replace (np_min cand / prec * prec) with (np_min cand) in F by (field; lra).
      pose proof (Rceil_spec (np_max cand / prec)) as [_ F']. apply (Rmult_le_compat_r prec) in F'; [|lra]. replace (np_max cand / prec * prec) with (np_max cand) in F' by (field; lra). lra. }
    clearbody b0 b1. apply (yields_weaken _ (Forall2 (fun _ _ => True) ls)); [intros xs F; clear -F; induction F; cbn [length]; lia|].
    apply (yields_map (fun fuel l => if is_finite_loss comps adj l then let? x := range_search sigma comps adj fuel prec l b0 b1 in Ok (Fin x) else Ok match adj with ADD => MInf | REMOVE => PInf end)).
    intros l _. destruct (is_finite_loss comps adj l).
    - apply (yields_bind _ _ _ _ (range_yields adj prec l Hp b0 b1 B01)). intros x _. apply yields_ret. exact Logic.I.
    - apply yields_ret. exact Logic.I.
  Qed.

  (** ** The deltas *)
  Definition descending (ds : list R) : Prop := (forall d, In d ds -> 0 <= d <= 1) /\ StronglySorted Rge ds.
  Lemma running_descending ds : (forall d, In d ds -> 0 <= d <= 1) -> descending (running_max ds) /\ length (running_max ds) = length ds.
  Proof.
    induction ds as [|d ds IH]; intros H; cbn [running_max]; [split; [split; [intros ? [] | constructor] | reflexivity]|].
    destruct IH as ((R & S) & L); [intros; apply H; right; assumption|]. pose proof (H d (or_introl eq_refl)) as Hd.
    destruct (running_max ds) as [|m r]; [split; [split; [intros x [<-|[]]; exact Hd | repeat constructor] | cbn [length] in *; lia]|].
    pose proof (R m (or_introl eq_refl)) as Hm. split; [|cbn [length] in *; lia]. split.
    - intros x [<-|I]; [|apply R, I]. split; [apply Rle_trans with d; [lra | apply Rmax_l] | apply Rmax_lub; lra].
    - constructor; [exact S|]. apply Forall_forall. intros x I. apply Rle_ge. eapply Rle_trans; [|apply Rmax_r]. destruct I as [<-|I]; [lra|]. inversion S as [|? ? _ F]; subst. rewrite Forall_forall in F. apply Rge_le, F, I.
  Qed.
  Lemma clip_range x : 0 <= Rmin 1 (Rmax 0 x) <= 1.
  Proof. split; [apply Rmin_glb; [lra | apply Rmax_l] | apply Rmin_l]. Qed.
  Lemma cutoff_range adj e x : 0 <= cutoff_delta Phi sigma comps adj e x <= 1.
  Proof.
    unfold cutoff_delta. match goal with |- context [clip01 ?w] => destruct w as [y| | |] end; cbn [clip01]; try lra. apply clip_range.
  Qed.
  Lemma scatter_range adj eps : forall xs, length xs = length (filter (needs_cutoff comps adj) eps) ->
    length (scatter Phi sigma comps adj eps xs) = length eps /\ forall d, In d (scatter Phi sigma comps adj eps xs) -> 0 <= d <= 1.
  Proof.
    induction eps as [|e eps IH]; intros xs H; cbn [scatter filter] in *; [split; [reflexivity | intros ? []]|]. destruct (needs_cutoff comps adj e).
    - destruct xs as [|x xs]; [discriminate|]. destruct (IH xs ltac:(cbn in H; lia)) as (L & R). split; [cbn [length]; lia|]. intros d [<-|I]; [apply cutoff_range | apply R, I].
    - destruct (IH xs H) as (L & R). split; [cbn [length]; lia|]. intros d [<-|I]; [apply clip_range | apply R, I].
  Qed.
  Lemma nondecreasing_sorted l : nondecreasing l = true <-> StronglySorted Rle l.
  Proof.
    split.
    - intros H. apply Sorted_StronglySorted; [intros x y z; apply Rle_trans|]. induction l as [|a l IH]; [constructor|]. destruct l as [|b l]; [repeat constructor|].
      cbn [nondecreasing] in H. apply Bool.andb_true_iff in H as [H1 H2]. constructor; [apply IH, H2|]. constructor. destruct (Rleb_spec a b); [assumption | discriminate].
    - induction 1 as [|a l S IH F]; [reflexivity|]. destruct l as [|b l]; [reflexivity|]. cbn [nondecreasing]. rewrite Rleb_true by (inversion F; assumption). exact IH.
  Qed.
  Lemma filter_sorted (f : R -> bool) l : StronglySorted Rle l -> StronglySorted Rle (filter f l).
  Proof.
    induction 1 as [|a l S IH F]; cbn [filter]; [constructor|]. destruct (f a); [|exact IH]. constructor; [exact IH|]. rewrite Forall_forall in *. intros x I. apply filter_In in I as (I & _). apply F, I.
  Qed.
  Lemma deltas_yield adj eps : StronglySorted Rle eps -> (exists e, In e eps /\ proper_epsilon adj q e) ->
    yields (fun fuel => mx_deltas Phi fuel sigma comps adj eps) (fun ds => descending ds /\ length ds = length eps).
  Proof.
    intros SE (e & I & P & N). unfold mx_deltas, raw_deltas. rewrite (proj2 (nondecreasing_sorted eps) SE). cbn [negb].
    assert (Y : yields (fun fuel => mx_inverse_losses fuel sigma comps adj (filter (needs_cutoff comps adj) eps) (1 / 10 ^ 6)) (fun xs => length xs = length (filter (needs_cutoff comps adj) eps))).
    { apply inverse_losses_yield; [lra | apply nondecreasing_sorted, filter_sorted, SE | |].
      - intros l J. apply filter_In in J as (_ & J). apply (needs_eq comps ok total some), J.
      - right. exists e. split; [|exact N]. apply filter_In. split; [exact I | apply (needs_eq comps ok total some), P]. }
    destruct Y as (M & xs & L & H). destruct (scatter_range adj eps xs L) as (L' & R'). destruct (running_descending _ R') as (D & L'').
    exists M, (running_max (scatter Phi sigma comps adj eps xs)). split; [split; [exact D | lia]|]. intros fuel Hf. rewrite H by exact Hf. reflexivity.
  Qed.

  (** ** The dots *)
  Lemma dots_accept disc : 0 < disc -> forall l u ds, (l <= u)%Z -> length ds = Z.to_nat (u - l + 1) -> descending ds -> exists p, connect_dots_fixed_gap disc l u ds = Ok p.
  Proof.
    intros Hd l u ds LU EL (R01 & SD). rewrite (fixed_gap_eq disc Hd). set (n := Z.to_nat (u - l + 1)) in *. set (eps := zrange l n).
    assert (EE : length eps = length ds) by (unfold eps; rewrite zrange_length; lia).
    assert (G : ProofDots.grid (combine eps ds)).
    { unfold eps. clear -SD. clearbody n. clear u. revert l n. induction SD as [|d ds S IH F]; intros l n; [destruct (zrange l n); exact I|]. destruct n as [|n]; [exact I|]. cbn [zrange combine].
      specialize (IH (l + 1)%Z n). destruct n as [|n]; [exact I|]. cbn [zrange combine] in *. destruct ds as [|d' ds]; [exact I|]. cbn [combine] in *. split; [lia|]. split; [|exact IH]. inversion F; subst. apply Rge_le. assumption. }
    destruct (grid_code disc Hd _ G) as [C1 C2]. destruct (split_grid eps ds EE) as [E1 E2]. rewrite <- E1 in C1. rewrite <- E2 in C2.
    unfold connect_dots. rewrite (proj2 (Nat.eqb_eq _ _) EE). destruct (Nat.eqb_spec (length eps) 0) as [L0|L0]; [exfalso; lia|]. cbn [negb orb]. rewrite C1.
    assert (C3 : existsb (fun x => Rltb x 0) ds = false).
    { destruct (existsb (fun x => Rltb x 0) ds) eqn:B; [|reflexivity]. apply existsb_exists in B. destruct B as (d & Hin & B). specialize (R01 d Hin). rewrite Rltb_false in B by lra. discriminate. }
    assert (C4 : existsb (fun x => Rltb 1 x) ds = false).
    { destruct (existsb (fun x => Rltb 1 x) _) eqn:B; [|reflexivity]. apply existsb_exists in B. destruct B as (d & Hin & B). specialize (R01 d Hin). rewrite Rltb_false in B by lra. discriminate. }
    rewrite C3, C4, C2. cbn [orb]. apply create_pmf_total.
  Qed.

  Lemma tail_yields adj pess lb : lb <= 0 ->
    yields (fun fuel => mx_tail Phi ppf fuel sigma comps pess lb adj)
      (fun t => upper_x_truncation t = - (sigma * ppf (1 / 2 * exp lb)) /\ lower_x_truncation t <= sigma * ppf (1 / 2 * exp lb) /\ sigma * ppf (1 / 2 * exp lb) <= 0).
  Proof.
    intros Hlb. assert (T : 0 < 1 / 2 * exp lb <= 1 / 2). { pose proof (exp_pos lb). assert (exp lb <= 1) by (rewrite <- exp_0; apply exp_le; exact Hlb). lra. }
    assert (Z0 : ppf (1 / 2 * exp lb) <= 0) by (apply (quantile_neg Phi); assumption). unfold mx_tail. set (z := sigma * ppf (1 / 2 * exp lb)) in *. assert (z <= 0) by (unfold z; nra).
    destruct (sens_range comps some) as (S1 & _). destruct adj.
    - cbn [bind]. apply yields_ret. cbn. repeat split; lra.
    - apply (yields_bind _ _ (fun x => x <= z)); [|intros x Hx; apply yields_ret; cbn; repeat split; lra].
      apply (yields_bind _ _ (fun r => exists x, r = Some (Fin x) /\ x <= z)).
      + eapply yields_weaken; [|apply inverse_yields; [lra | lra |]]; [intros r (x & y & -> & A); exists x; split; [reflexivity | lra]|].
        rewrite mu_fin, upper_eq. assert (E : Phi (z / sigma) = 1 / 2 * exp lb) by (unfold z; replace (sigma * ppf (1 / 2 * exp lb) / sigma) with (ppf (1 / 2 * exp lb)) by (field; lra); apply HQ; lra).
        rewrite <- E. change (Phi (z / sigma)) with (law Phi sigma z). replace (law Phi sigma z) with (rsum (fun c => snd c * law Phi sigma z) comps) by (rewrite rsum_scal_r, total; ring).
        apply rsum_le. intros c I. destruct (ok c I). apply Rmult_le_compat_l; [lra|]. apply (law_cdf Phi HPhi sigma Hs). pose proof (smax_all comps ok some c I). lra.
      + intros r (x & -> & Hx). apply yields_ret. exact Hx.
  Qed.

  Lemma rho_at_least y : y <= - smax / 2 -> 1 <= rho sigma comps y.
  Proof.
    intros H. rewrite <- total. apply rsum_le. intros c I. destruct (ok c I) as [S P]. pose proof (smax_all comps ok some c I).
    assert (1 <= term sigma y c); [|nra]. unfold term. rewrite <- exp_0 at 1. apply exp_le. apply Rle_mult_inv_pos; [|nra]. assert (0 <= fst c * (- y - fst c / 2)) by (apply Rmult_le_pos; lra). lra.
  Qed.
  Lemma rho_decreasing a b : a <= b -> rho sigma comps b <= rho sigma comps a.
  Proof. intros H. apply (rho_slope sigma Hs comps ok smax (smax_all comps ok some) a b H). Qed.

  Lemma dots_yield adj pess lb disc : 0 < disc -> lb <= 0 ->
    q = 1 \/ (2 / 10 ^ 8 <= q /\ 1 / 2 * exp lb <= Phi (- smax / (2 * sigma))) ->
    yields (fun fuel => mx_dots_pmf Phi ppf fuel sigma comps pess lb adj disc) (fun _ => True).
  Proof.
    intros Hd Hlb HC. unfold mx_dots_pmf. apply (yields_bind _ _ _ _ (tail_yields adj pess lb Hlb)). intros t (TU & TL & TZ). set (z := sigma * ppf (1 / 2 * exp lb)) in *.
    rewrite !(mx_loss_eq sigma Hs comps ok total). rewrite TU. set (lx := lower_x_truncation t) in *. clearbody lx.
    set (u := Rceil (mloss sigma comps adj lx / disc)). set (l := Rfloor (mloss sigma comps adj (- z) / disc)).
    assert (LU0 : mloss sigma comps adj (- z) <= mloss sigma comps adj lx).
    { unfold mloss. destruct adj.
      - rewrite Ropp_involutive. assert (rho sigma comps (- lx) <= rho sigma comps z) by (apply rho_decreasing; lra). apply ln_le_mono in H; [lra | apply rho_pos; assumption].
      - apply ln_le_mono; [apply rho_pos; assumption | apply rho_decreasing; lra]. }
    assert (DV : forall a b, a <= b -> a / disc <= b / disc) by (intros; apply Rmult_le_compat_r; [apply Rlt_le, Rinv_0_lt_compat, Hd | assumption]).
    pose proof (Rfloor_spec (mloss sigma comps adj (- z) / disc)) as [F1 F2]. pose proof (Rceil_spec (mloss sigma comps adj lx / disc)) as [G1 G2]. fold l in F1, F2. fold u in G1, G2. pose proof (DV _ _ LU0).
    assert (LU : (l <= u)%Z) by (apply le_IZR; lra).
    set (eps := map (fun z => IZR z * disc) (zrange l (Z.to_nat (u - l + 1)))).
    assert (SE : StronglySorted Rle eps).
    { unfold eps. clearbody l. generalize (Z.to_nat (u - l + 1)) as n. clear -Hd. intros n. revert l. induction n as [|n IH]; intros l; cbn [zrange map]; [constructor|]. constructor; [apply IH|].
      apply Forall_forall. intros x I. apply in_map_iff in I as (z' & <- & I). apply zrange_In in I. apply Rmult_le_compat_r; [lra | apply IZR_le; lia]. }
    assert (AN : exists e, In e eps /\ proper_epsilon adj q e).
    { destruct HC as [Q1|(Q2 & TT)].
      - exists (IZR l * disc). split; [apply in_map_iff; exists l; split; [reflexivity | apply zrange_In; lia]|]. split; [intros L; lra | intros (L & _); lra].
      - exists 0. split; [|apply (zero_proper comps ok total); exact Q2]. apply in_map_iff. exists 0%Z. split; [ring|]. apply zrange_In.
        assert (ZS : z <= - smax / 2).
        { assert (E : Phi (z / sigma) = 1 / 2 * exp lb).
          { unfold z. replace (sigma * ppf (1 / 2 * exp lb) / sigma) with (ppf (1 / 2 * exp lb)) by (field; lra). apply HQ. pose proof (exp_pos lb). assert (exp lb <= 1) by (rewrite <- exp_0; apply exp_le; exact Hlb). lra. }
          rewrite <- E in TT. destruct (Rle_lt_dec (z / sigma) (- smax / (2 * sigma))) as [L|L].
          - apply (Rmult_le_compat_r sigma) in L; [|lra]. replace (z / sigma * sigma) with z in L by (field; lra). replace (- smax / (2 * sigma) * sigma) with (- smax / 2) in L by (field; lra). exact L.
          - pose proof (normal_strict Phi _ _ HPhi L). lra. }
        assert (NEG : mloss sigma comps adj (- z) <= 0 /\ 0 <= mloss sigma comps adj lx).
        { unfold mloss. destruct (sens_range comps some) as (S1 & _). destruct adj.
          - rewrite Ropp_involutive. split.
            + pose proof (rho_at_least z ZS) as B. apply ln_le_mono in B; [|lra]. rewrite ln_1 in B. lra.
            + pose proof (rho_below sigma Hs comps ok total some (- lx) ltac:(lra)) as B. apply ln_increasing in B; [|apply rho_pos; assumption]. rewrite ln_1 in B. lra.
          - split.
            + pose proof (rho_below sigma Hs comps ok total some (- z) ltac:(lra)) as B. apply ln_increasing in B; [|apply rho_pos; assumption]. rewrite ln_1 in B. lra.
            + pose proof (rho_at_least lx ltac:(lra)) as B. apply ln_le_mono in B; [|lra]. rewrite ln_1 in B. lra. }
        destruct NEG as [N1 N2]. apply DV in N1, N2. replace (0 / disc) with 0 in N1, N2 by (field; lra).
        assert ((l <= 0)%Z) by (apply le_IZR; lra). assert ((0 <= u)%Z) by (apply le_IZR; lra). lia. }
    apply (yields_bind _ _ _ _ (deltas_yield adj eps SE AN)). intros ds (D & L). destruct (dots_accept disc Hd l u ds LU) as (p & Ep); [|exact D|].
    - rewrite L. unfold eps. rewrite map_length, zrange_length. reflexivity.
    - rewrite Ep. apply yields_ret. exact Logic.I.
  Qed.
End Total.

Lemma mixture_total Phi ppf sigma sens probs comps disc lb smax : normal_cdf Phi -> quantile_of Phi ppf -> 0 < disc -> new_mixture sigma sens probs lb = Ok comps ->
  rsum (fun p => p) probs = 1 -> (forall s, In s sens -> s <= smax) ->
  positive_part (combine sens probs) = 1 \/ (2 / 10 ^ 8 <= positive_part (combine sens probs) /\ 1 / 2 * exp lb <= Phi (- smax / (2 * sigma))) ->
  succeeds (fun fuel => from_mixture_gaussian_mechanism Phi ppf fuel sigma sens probs true disc lb true).
Proof.
  intros HPhi HQ Hd EN HT HM HC. destruct (new_mixture_ok _ _ _ _ _ EN HT) as (Hs & Hlb & EL & EC & ok & total & some & Wn & Wt).
  assert (HC' : positive_part comps = 1 \/ (2 / 10 ^ 8 <= positive_part comps /\ 1 / 2 * exp lb <= Phi (- mx_max_sens comps / (2 * sigma)))).
  { rewrite EC, drop_positive, <- EC. destruct HC as [Q|(Q & T)]; [left; exact Q | right; split; [exact Q|]]. eapply Rle_trans; [exact T|]. pose proof HPhi as ((_ & M & _) & _). apply M.
    destruct (sens_range comps some) as (_ & _ & _ & (c & I & E)). rewrite <- E. rewrite EC in I. apply filter_In in I as (I & _). destruct c as [s p]. apply in_combine_l in I. apply HM in I. cbn [fst].
    unfold Rdiv. apply Rmult_le_compat_r; [apply Rlt_le, Rinv_0_lt_compat; lra | lra]. }
  assert (Y : yields (fun fuel => from_mixture_gaussian_mechanism Phi ppf fuel sigma sens probs true disc lb true) (fun _ => True)).
  { unfold from_mixture_gaussian_mechanism. rewrite EN. cbn [bind]. unfold mx_pmf. cbn [andb].
    apply (yields_bind _ _ _ _ (dots_yield Phi ppf HPhi HQ sigma Hs comps ok total some REMOVE true lb disc Hd Hlb HC')). intros r _.
    apply (yields_bind _ _ _ _ (dots_yield Phi ppf HPhi HQ sigma Hs comps ok total some ADD true lb disc Hd Hlb HC')). intros a _. apply yields_ret. exact Logic.I. }
  destruct Y as (N & D & _ & H). exists N, D. exact H.
Qed.
