(** The four classes of additive noise are instances of the general development. *)
From Coq Require Import FunctionalExtensionality.
From Verif Require Import Base XReal Exn PyDict TypesAdjacency SpecDP SpecMech SpecClasses ModelPmf ModelMake ModelRdp ModelLog ModelMech
  ProofDP ProofLog ProofPeak ProofNoise ProofShape ProofShapeGauss ProofShapeInt ProofAdditive.
Local Arguments Rltb : simpl never.
Local Arguments Rleb : simpl never.
Local Arguments Reqb : simpl never.

Lemma check_additive_ok s q u : check_additive s q = Ok u -> 0 < s /\ 0 < q <= 1.
Proof.
  unfold check_additive. destruct (Rleb_spec s 0); [discriminate|]. destruct (Rleb_spec q 0); [discriminate|]. cbn [orb].
  destruct (Rltb_spec 1 q); [discriminate|]. intros _. lra.
Qed.
Lemma check_additive_true s q : 0 < s -> 0 < q <= 1 -> check_additive s q = Ok tt.
Proof. intros. unfold check_additive. rewrite !Rleb_false, Rltb_false by lra. reflexivity. Qed.

(** ** Laplace *)
Lemma laplace_fits b s : 0 < b -> 0 < s ->
  fits (laplace_law b) s (laplace_peak b s) (laplace_cdf b) (laplace_inverse0 b s).
Proof.
  intros Hb Hs. split.
  - apply laplace_shape; lra.
  - intros x. destruct x; reflexivity.
  - intros l. unfold laplace_inverse0, laplace_peak. cbn [xmul xltb xleb]. destruct (Rltb_spec s (l * b)); [reflexivity|].
    destruct (Rleb_spec (l * b) (- s)); [reflexivity|]. unfold xsub. cbn [xmul xneg xadd]. reflexivity.
  - intros l. unfold laplace_inverse0, laplace_peak. cbn [xmul xltb xleb]. destruct (Rltb_spec s (l * b)); [reflexivity|].
    destruct (Rleb_spec (l * b) (- s)); [reflexivity|]. unfold xsub. cbn [xmul xneg xadd]. do 2 f_equal. lra.
  - exists PInf. unfold laplace_inverse0. cbn [xmul]. unfold inf_times. rewrite Rltb_true by assumption. cbn. repeat split. discriminate.
  - exists MInf. unfold laplace_inverse0. cbn [xmul]. unfold inf_times. rewrite Rltb_true by assumption. cbn. repeat split. discriminate.
Qed.
Lemma div_le x y b : 0 < b -> x <= y / b <-> x * b <= y.
Proof.
  intros Hb. split; intros H.
  - apply (Rmult_le_compat_r b) in H; [|lra]. replace (y / b * b) with y in H by (field; lra). assumption.
  - apply (Rmult_le_reg_r b); [assumption|]. replace (y / b * b) with y by (field; lra). assumption.
Qed.
Lemma laplace_loss_iff b s l x : 0 < b -> 0 < s ->
  xleb (Fin l) (Fin ((Rabs x - Rabs (x + s)) / b)) = true <-> xleb (Fin x) (laplace_peak b s l) = true.
Proof.
  intros Hb Hs. rewrite xleb_fin, div_le by assumption. split.
  - intros H. unfold laplace_peak. destruct (Rltb_spec s (l * b)).
    + exfalso. revert H. unfold Rabs. destruct (Rcase_abs x), (Rcase_abs (x + s)); lra.
    + destruct (Rleb_spec (l * b) (- s)); [reflexivity|]. apply xleb_fin. revert H. unfold Rabs.
      destruct (Rcase_abs x), (Rcase_abs (x + s)); lra.
  - intros H. apply laplace_loss_left; [lra | assumption].
Qed.
Lemma laplace_loses b s : 0 < b -> 0 < s ->
  loses s (laplace_peak b s) (laplace_loss0 b s) (fun _ _ => True) (fun x => Fin ((Rabs x - Rabs (x + s)) / b)).
Proof.
  intros Hb Hs. split.
  - intros x _. split; [reflexivity | discriminate].
  - intros x _. split; [|discriminate]. unfold laplace_loss0. replace (x - s + s) with x by ring. reflexivity.
  - intros x l _. apply laplace_loss_iff; assumption.
  - intros x l _. apply laplace_loss_iff; assumption.
  - intros; exact Logic.I.
Qed.
Lemma laplace_ok b s q adj m : LaplacePrivacyLoss b s q adj = Ok m ->
  (0 < b /\ 0 < s /\ 0 < q <= 1) /\
  m = additive s q adj (laplace_cdf b) (laplace_loss0 b s adj) (laplace_inverse0 b s adj) false (laplace_tail b s q adj) (laplace_bounds b s q adj).
Proof.
  unfold LaplacePrivacyLoss. destruct (Rleb_spec b 0); [discriminate|].
  destruct (check_additive s q) eqn:E; cbn [bind]; [|discriminate]. apply check_additive_ok in E. intros [= <-]. split; [lra | reflexivity].
Qed.

(** ** Gaussian *)
Lemma gaussian_fits Phi sigma s : normal_cdf Phi -> 0 < sigma -> 0 < s ->
  fits (gaussian_law Phi sigma) s (gaussian_peak sigma s) (gaussian_cdf Phi sigma) (gaussian_inverse0 sigma s).
Proof.
  intros HP Hb Hs. split.
  - apply gaussian_shape; [assumption | assumption | lra].
  - intros x. destruct x; reflexivity.
  - intros l. unfold gaussian_inverse0, gaussian_peak. unfold xsub. cbn [xmul xdiv]. rewrite !Reqb_false by lra. cbn [xneg xadd]. do 2 f_equal. 
  - intros l. unfold gaussian_inverse0, gaussian_peak. unfold xsub. cbn [xmul xdiv]. rewrite !Reqb_false by lra. cbn [xneg xadd]. do 2 f_equal. lra.
  - exists PInf. unfold gaussian_inverse0, xsub. cbn [xmul]. unfold inf_times. rewrite Rltb_true by nra. cbn [xdiv]. rewrite Rltb_false by lra. cbn. repeat split. discriminate.
  - exists MInf. unfold gaussian_inverse0, xsub. cbn [xmul]. unfold inf_times. rewrite Rltb_true by nra. cbn [xdiv]. rewrite Rltb_false by lra. cbn. repeat split. discriminate.
Qed.
Lemma gauss_loss_iff sigma s l x : 0 < sigma -> 0 < s ->
  xleb (Fin l) (Fin (s * (- (1/2) * s - x) / (sigma * sigma))) = true <-> xleb (Fin x) (gaussian_peak sigma s l) = true.
Proof.
  intros Hb Hs. rewrite xleb_fin. split; [|apply gauss_loss_left; lra]. intros H. rewrite div_le in H by nra.
  unfold gaussian_peak. rewrite Reqb_false by lra. apply xleb_fin.
  assert (l * (sigma * sigma) / s <= - (1/2) * s - x); [|lra].
  apply (Rmult_le_reg_r s); [assumption|]. replace (l * (sigma * sigma) / s * s) with (l * (sigma * sigma)) by (field; lra). lra.
Qed.
Lemma gaussian_loses sigma s : 0 < sigma -> 0 < s ->
  loses s (gaussian_peak sigma s) (gaussian_loss0 sigma s) (fun _ _ => True) (fun x => Fin (s * (- (1/2) * s - x) / (sigma * sigma))).
Proof.
  intros Hb Hs. assert (sigma * sigma <> 0) by nra. split.
  - intros x _. split; [|discriminate]. unfold gaussian_loss0, xsub. cbn [xneg xadd xmul xdiv]. rewrite Reqb_false by assumption. reflexivity.
  - intros x _. split; [|discriminate]. unfold gaussian_loss0, xsub. cbn [xneg xadd xmul xdiv]. rewrite Reqb_false by assumption.
    do 3 f_equal. lra.
  - intros x l _. apply gauss_loss_iff; assumption.
  - intros x l _. apply gauss_loss_iff; assumption.
  - intros; exact Logic.I.
Qed.
Lemma gaussian_ok Phi ppf sigma s pess lb q adj m : GaussianPrivacyLoss Phi ppf sigma s pess lb q adj = Ok m ->
  (0 < sigma /\ 0 < s /\ 0 < q <= 1 /\ lb <= 0) /\
  m = additive s q adj (gaussian_cdf Phi sigma) (gaussian_loss0 sigma s adj) (gaussian_inverse0 sigma s adj) false
        (gaussian_tail Phi ppf sigma s pess lb q adj) (gaussian_bounds Phi ppf sigma s pess lb q adj).
Proof.
  unfold GaussianPrivacyLoss. destruct (Rleb_spec sigma 0); [discriminate|]. destruct (Rltb_spec 0 lb); [discriminate|].
  destruct (check_additive s q) eqn:E; cbn [bind]; [|discriminate]. apply check_additive_ok in E. intros [= <-]. split; [lra | reflexivity].
Qed.

(** ** Discrete Laplace *)
Lemma dlaplace_fits a s : 0 < a -> (0 < s)%Z ->
  fits (dlaplace_law a) (IZR s) (dlaplace_peak a s) (dlaplace_cdf a) (dlaplace_inverse0 a s).
Proof.
  intros Ha Hs. split.
  - apply dlaplace_shape; [assumption | lia].
  - intros x. destruct x; reflexivity.
  - intros l. unfold dlaplace_inverse0, dlaplace_peak. cbn [xdiv]. rewrite Reqb_false by lra. cbn [xltb xleb].
    destruct (Rltb (IZR s) (l / a)); [reflexivity|]. destruct (Rleb (l / a) (- IZR s)); reflexivity.
  - intros l. unfold dlaplace_inverse0, dlaplace_peak. cbn [xdiv]. rewrite Reqb_false by lra. cbn [xltb xleb].
    destruct (Rltb (IZR s) (l / a)); [reflexivity|]. destruct (Rleb (l / a) (- IZR s)); [reflexivity|]. cbn [xadd]. rewrite <- plus_IZR, <- Rfloor_plus.
    do 4 f_equal. lra.
  - exists PInf. unfold dlaplace_inverse0. cbn [xdiv]. rewrite Rltb_false by lra. cbn. repeat split. discriminate.
  - exists MInf. unfold dlaplace_inverse0. cbn [xdiv]. rewrite Rltb_false by lra. cbn. repeat split. discriminate.
Qed.
Definition int_pt (x : R) : Prop := x = IZR (Rfloor x).
Lemma is_int_point_iff x : is_int_point (Fin x) = true <-> int_pt x.
Proof. unfold is_int_point, int_pt. destruct (Reqb_spec x (IZR (Rfloor x))); split; auto; discriminate. Qed.
Lemma int_pt_shift x s : int_pt x -> int_pt (x - IZR s).
Proof. unfold int_pt. intros H. unfold Rminus. rewrite <- opp_IZR, Rfloor_plus, plus_IZR. lra. Qed.
Lemma dlaplace_loss_iff a s l x : 0 < a -> (0 < s)%Z -> int_pt x ->
  xleb (Fin l) (Fin ((Rabs x - Rabs (x + IZR s)) * a)) = true <-> xleb (Fin x) (dlaplace_peak a s l) = true.
Proof.
  intros Ha Hs Hx. rewrite xleb_fin. rewrite Hx. split; intros H.
  - destruct (xleb (Fin (IZR (Rfloor x))) (dlaplace_peak a s l)) eqn:E; [reflexivity|].
    apply dlaplace_loss_right in E; [lra | assumption | lia].
  - apply dlaplace_loss_left; [assumption | lia | assumption].
Qed.
Lemma dlaplace_loses a s : 0 < a -> (0 < s)%Z ->
  loses (IZR s) (dlaplace_peak a s) (dlaplace_loss0 a s) (fun _ => int_pt) (fun x => Fin ((Rabs x - Rabs (x + IZR s)) * a)).
Proof.
  intros Ha Hs. split.
  - intros x Hx. split; [|discriminate]. unfold dlaplace_loss0. rewrite (proj2 (is_int_point_iff x)) by assumption. reflexivity.
  - intros x Hx. split; [|discriminate]. unfold dlaplace_loss0. rewrite (proj2 (is_int_point_iff x)) by assumption.
    replace (x - IZR s + IZR s) with x by ring. reflexivity.
  - intros x l Hx. apply dlaplace_loss_iff; assumption.
  - intros x l Hx. apply dlaplace_loss_iff; [assumption | assumption | apply int_pt_shift, Hx].
  - intros adj x l. unfold dlaplace_loss0. destruct (is_int_point (Fin x)) eqn:E; [|discriminate]. intros _. apply is_int_point_iff, E.
Qed.
Lemma dlaplace_ok a s q adj m : DiscreteLaplacePrivacyLoss a s q adj = Ok m ->
  (0 < a /\ (0 < s)%Z /\ 0 < q <= 1) /\
  m = additive (IZR s) q adj (dlaplace_cdf a) (dlaplace_loss0 a s adj) (dlaplace_inverse0 a s adj) true (dlaplace_tail a s q adj) (dlaplace_bounds s adj).
Proof.
  unfold DiscreteLaplacePrivacyLoss. destruct (Rleb_spec a 0); [discriminate|].
  destruct (check_additive (IZR s) q) eqn:E; cbn [bind]; [|discriminate]. apply check_additive_ok in E. intros [= <-].
  destruct E as [E1 E2]. apply lt_IZR in E1. split; [split; [lra|]; split; [assumption | lra] | reflexivity].
Qed.

(** ** Discrete Gaussian *)
Lemma dgauss_sum_eq sigma T k : 0 < sigma -> dgauss_sum sigma T k = dg_sum sigma T k.
Proof.
  intros H. unfold dgauss_sum, dg_sum. apply rsum_ext. intros z _. unfold dgauss_weight. f_equal. field. lra.
Qed.
Lemma dgauss_inverse_eq sigma s T l : 0 < sigma -> (0 < s)%Z -> dgauss_inverse_add sigma s T (Fin l) = Ok (dg_point sigma T s l).
Proof.
  intros H Hs. apply IZR_lt in Hs. unfold dgauss_inverse_add, xsub. cbn [xeqb xmul xdiv]. rewrite Reqb_false by lra. reflexivity.
Qed.
Lemma dgauss_fits sigma s T : 0 < sigma -> (0 < s)%Z -> (0 <= T)%Z ->
  fits (dgaussian_law sigma T) (IZR s) (dgaussian_peak sigma T s) (dgauss_cdf sigma T) (dgauss_inverse0 sigma s T).
Proof.
  intros Hb Hs HT. pose proof (IZR_lt _ _ Hs) as Hs'. split.
  - apply dgaussian_shape; [assumption | assumption | lia].
  - intros x. destruct x; cbn [dgauss_cdf at_end]; try reflexivity. unfold dgaussian_law, dg_G, dgauss_cdf_Z.
    rewrite !dgauss_sum_eq by assumption. reflexivity.
  - intros l. unfold dgauss_inverse0, dgaussian_peak. rewrite dgauss_inverse_eq by assumption. cbn [bind].
    destruct (Z.eqb_spec s 0); [lia | reflexivity].
  - intros l. unfold dgauss_inverse0, dgaussian_peak. rewrite dgauss_inverse_eq by assumption. cbn [bind].
    destruct (Z.eqb_spec s 0); [lia|]. cbn [xadd]. do 2 f_equal. rewrite minus_IZR. ring.
  - exists (Fin (IZR (T - s))). split; [reflexivity|]. split; [discriminate|]. cbn [xadd at_end]. unfold dgaussian_law.
    rewrite minus_IZR. replace (IZR T - IZR s + IZR s) with (IZR T) by ring. rewrite Rfloor_IZR. apply dg_high; assumption.
  - exists (Fin (IZR (s - T - 1))). split.
    + unfold dgauss_inverse0, dgauss_inverse_add, xsub. cbn [xeqb xmul]. unfold inf_times. rewrite Rltb_true by nra.
      cbn [xdiv]. rewrite Rltb_false by lra. reflexivity.
    + split; [discriminate|]. cbn [xadd at_end]. unfold dgaussian_law. rewrite <- opp_IZR, <- plus_IZR, Rfloor_IZR.
      replace (s - T - 1 + - s)%Z with (- T - 1)%Z by lia. apply dg_low; assumption.
Qed.
Definition dg_pt (s T : Z) (adj : adjacency) (x : R) : Prop :=
  let y := match adj with ADD => x | REMOVE => x + IZR s end in int_pt y /\ - IZR T <= y <= IZR T + IZR s.
Definition dg_L (sigma : R) (s T : Z) (x : R) : xr :=
  let y := x + IZR s in
  if Rltb (IZR T) y then MInf else if Rltb y (IZR s - IZR T) then PInf else Fin (IZR s * (1/2 * IZR s - y) / (sigma * sigma)).
Lemma dg_loss_add sigma s T y : int_pt y -> - IZR T <= y <= IZR T + IZR s -> dgauss_loss_add sigma s T (Fin y) = Ok (dg_L sigma s T (y - IZR s)).
Proof.
  intros Hy B. unfold dgauss_loss_add, dg_L. rewrite (proj2 (is_int_point_iff y)) by assumption. rewrite !Rltb_false by lra. cbn [negb orb].
  replace (y - IZR s + IZR s) with y by ring. destruct (Rltb (IZR T) y); [reflexivity|]. destruct (Rltb y (IZR s - IZR T)); reflexivity.
Qed.
Lemma dg_L_iff sigma s T l y : 0 < sigma -> (0 < s)%Z -> (s <= 2 * T)%Z -> int_pt y -> 
  xleb (Fin l) (dg_L sigma s T (y - IZR s)) = true <-> xleb (Fin (y - IZR s)) (dgaussian_peak sigma T s l) = true.
Proof.
  intros Hb Hs HT Hy. unfold dg_L, dgaussian_peak. rewrite (proj2 (Z.eqb_neq s 0)) by lia. replace (y - IZR s + IZR s) with y by ring.
  rewrite xleb_fin, minus_IZR. rewrite Hy. set (j := Rfloor y). clearbody j. clear y Hy.
  transitivity (j <= dg_point sigma T s l)%Z.
  2: { split; intros H; [apply IZR_le in H; lra | apply le_IZR; lra]. }
  rewrite dg_point_le by assumption. destruct (Rltb_spec (IZR T) (IZR j)) as [G|G].
  - apply lt_IZR in G. split; [discriminate | lia].
  - assert (G' : (j <= T)%Z) by (apply le_IZR; lra). rewrite <- minus_IZR. destruct (Rltb_spec (IZR j) (IZR (s - T))) as [G2|G2].
    + apply lt_IZR in G2. split; [intros _; split; [assumption | left; lia] | reflexivity].
    + rewrite xleb_fin. split; [intros H; split; [assumption | right; assumption]|]. intros [_ [H|H]]; [|assumption].
      exfalso. apply G2. apply IZR_lt. lia.
Qed.
Lemma dg_L_nan sigma s T x : dg_L sigma s T x <> NaN.
Proof. unfold dg_L. destruct (Rltb _ _); [discriminate|]. destruct (Rltb _ _); discriminate. Qed.
Lemma dgauss_loses sigma s T : 0 < sigma -> (0 < s)%Z -> (s <= 2 * T)%Z ->
  loses (IZR s) (dgaussian_peak sigma T s) (dgauss_loss0 sigma s T) (dg_pt s T) (dg_L sigma s T).
Proof.
  intros Hb Hs HT. assert (SH : forall x, x = x + IZR s - IZR s) by (intros; ring). split.
  - intros x [Hi Hr]. split; [|apply dg_L_nan]. cbn [dgauss_loss0 xadd]. rewrite dg_loss_add by assumption. rewrite <- SH. reflexivity.
  - intros x [Hi Hr]. split; [|apply dg_L_nan]. apply dg_loss_add; assumption.
  - intros x l [Hi Hr]. rewrite (SH x). apply dg_L_iff; assumption.
  - intros x l [Hi Hr]. apply dg_L_iff; assumption.
  - intros adj x l H. assert (A : forall y l, dgauss_loss_add sigma s T (Fin y) = Ok l -> int_pt y /\ - IZR T <= y <= IZR T + IZR s).
    { intros y l'. unfold dgauss_loss_add. destruct (is_int_point (Fin y)) eqn:I; [|discriminate]. cbn [negb orb].
      destruct (Rltb_spec y (- IZR T)); [discriminate|]. cbn [orb]. destruct (Rltb_spec (IZR T + IZR s) y); [discriminate|]. intros _.
      split; [apply is_int_point_iff, I | lra]. }
    destruct adj; cbn [dgauss_loss0 xadd] in H; apply A in H; exact H.
Qed.
Lemma dgauss_ok sigma s T q adj m : DiscreteGaussianPrivacyLoss sigma s T q adj = Ok m ->
  (0 < sigma /\ (0 < s)%Z /\ (s <= 2 * T)%Z /\ 0 < q <= 1) /\
  m = additive (IZR s) q adj (dgauss_cdf sigma T) (dgauss_loss0 sigma s T adj) (dgauss_inverse0 sigma s T adj) true
        (dgauss_tail sigma s T q adj) (dgauss_bounds s T q adj).
Proof.
  unfold DiscreteGaussianPrivacyLoss. destruct (Rleb_spec sigma 0); [discriminate|]. destruct (Z.ltb_spec (2 * T) s); [discriminate|].
  destruct (check_additive (IZR s) q) eqn:E; cbn [bind]; [|discriminate]. apply check_additive_ok in E. intros [= <-].
  destruct E as [E1 E2]. apply lt_IZR in E1. split; [split; [lra|]; split; [assumption|]; split; [assumption | lra] | reflexivity].
Qed.

(** ** The privacy loss is the log-likelihood ratio *)
Lemma exp_div u v : exp u / exp v = exp (u - v).
Proof. unfold Rminus. rewrite exp_plus, exp_Ropp. reflexivity. Qed.
Lemma laplace_ratio b s x : 0 < b -> ratio_of (fun x => exp (- Rabs x / b)) s x (Fin ((Rabs x - Rabs (x + s)) / b)).
Proof.
  intros Hb. unfold ratio_of, log_ratio. split; [apply exp_pos|]. split; [apply exp_pos|]. unfold Rdiv at 2.
  rewrite <- exp_Ropp, <- exp_plus, ln_exp. field. lra.
Qed.
Lemma gaussian_ratio sigma s x : 0 < sigma ->
  ratio_of (fun x => exp (- (x * x) / (2 * (sigma * sigma)))) s x (Fin (s * (- (1/2) * s - x) / (sigma * sigma))).
Proof.
  intros Hb. unfold ratio_of, log_ratio. split; [apply exp_pos|]. split; [apply exp_pos|]. 
  rewrite <- gauss_loss by assumption. rewrite <- (ln_exp (- ((x + s) * (x + s)) / (2 * (sigma * sigma)) - - (x * x) / (2 * (sigma * sigma)))).
  unfold Rminus. rewrite exp_plus, exp_Ropp. reflexivity.
Qed.
Lemma dlaplace_ratio a s x : int_pt x ->
  ratio_of (fun x => dlaplace_weights a (Rfloor x)) (IZR s) x (Fin ((Rabs x - Rabs (x + IZR s)) * a)).
Proof.
  intros Hx. unfold ratio_of, log_ratio, dlaplace_weights. split; [apply exp_pos|]. split; [apply exp_pos|]. unfold Rdiv.
  rewrite <- exp_Ropp, <- exp_plus, ln_exp, Rfloor_plus, plus_IZR. rewrite <- Hx. ring.
Qed.
Lemma dg_ratio_of sigma s T y : 0 < sigma -> (0 < s)%Z -> (s <= 2 * T)%Z -> int_pt y -> - IZR T <= y <= IZR T + IZR s ->
  ratio_of (fun x => dgaussian_weights sigma T (Rfloor x)) (IZR s) (y - IZR s) (dg_L sigma s T (y - IZR s)).
Proof.
  intros Hb Hs HT Hy B. unfold ratio_of, dg_L. replace (y - IZR s + IZR s) with y by ring.
  assert (E : Rfloor (y - IZR s) = (Rfloor y - s)%Z) by (unfold Rminus; rewrite <- opp_IZR, Rfloor_plus; reflexivity).
  rewrite E. rewrite Hy in B |- *. rewrite Rfloor_IZR. set (j := Rfloor y) in *. clearbody j. clear y Hy E.
  assert (B1 : (- T <= j)%Z) by (apply le_IZR; rewrite opp_IZR; lra). assert (B2 : (j <= T + s)%Z) by (apply le_IZR; rewrite plus_IZR; lra).
  unfold dgaussian_weights. destruct (Rltb_spec (IZR T) (IZR j)) as [G|G].
  - apply lt_IZR in G. rewrite (proj2 (Z.leb_gt (Z.abs j) T)), (proj2 (Z.leb_le (Z.abs (j - s)) T)) by lia.
    cbn [log_ratio]. split; [reflexivity | apply exp_pos].
  - assert (G' : (j <= T)%Z) by (apply le_IZR; lra). rewrite (proj2 (Z.leb_le (Z.abs j) T)) by lia. rewrite <- minus_IZR.
    destruct (Rltb_spec (IZR j) (IZR (s - T))) as [G2|G2].
    + apply lt_IZR in G2. rewrite (proj2 (Z.leb_gt (Z.abs (j - s)) T)) by lia. cbn [log_ratio]. split; [apply exp_pos | reflexivity].
    + assert (G3 : (s - T <= j)%Z) by (apply le_IZR; lra). rewrite (proj2 (Z.leb_le (Z.abs (j - s)) T)) by lia.
      cbn [log_ratio]. split; [apply exp_pos|]. split; [apply exp_pos|]. rewrite exp_div, ln_exp, minus_IZR. field. lra.
Qed.

(** ** All four *)
Record instance (m : monotone) (ok : R -> Prop) (F f : R -> R) (s q : R) (adj : adjacency) : Prop := {
  in_q : 0 < q <= 1;
  in_s : 0 < s;
  in_ok : ok s;
  in_family : noise_family ok F;
  in_rest : exists pk cdf loss0 inverse0 pt L disc tail bounds,
    m = additive s q adj cdf (loss0 adj) (inverse0 adj) disc tail bounds /\
    fits F s pk cdf inverse0 /\ loses s pk loss0 pt L /\
    (forall x, pt adj x -> match adj with REMOVE => ratio_of f s x (L x) | ADD => ratio_of f s (x - s) (L (x - s)) end) /\
    (forall x, ok x -> 0 < upper_density adj f q s x \/ 0 < lower_density adj f q s x -> pt adj x) }.
Lemma dg_weight_in sigma T k : 0 < dgaussian_weights sigma T k -> (- T <= k <= T)%Z.
Proof. unfold dgaussian_weights. destruct (Z.leb_spec (Z.abs k) T); [lia | lra]. Qed.
Lemma density_in q u v : 0 < q <= 1 -> 0 <= u -> 0 <= v -> 0 < (1 - q) * u + q * v -> 0 < u \/ 0 < v.
Proof. intros Hq Hu Hv H. destruct (Rle_lt_or_eq_dec 0 u Hu) as [|<-]; [left; assumption|]. right. nra. Qed.
Lemma additive_instance m ok F f s q adj : additive_noise m ok F f s q adj -> instance m ok F f s q adj.
Proof.
  intros [b s' q' adj' H | Phi ppf sigma s' pess lb q' adj' HP H | a s' q' adj' F' HF H | sigma s' T q' adj' F' HF H].
  - apply laplace_ok in H. destruct H as [(Hb & Hs & Hq) E]. split; try assumption; try exact Logic.I; [apply laplace_family, Hb|].
    do 9 eexists. split; [exact E|]. split; [apply laplace_fits; assumption|]. split; [apply laplace_loses; assumption|].
    split; [intros x _; destruct adj'; apply laplace_ratio, Hb | intros; exact Logic.I].
  - apply gaussian_ok in H. destruct H as [(Hb & Hs & Hq & _) E]. split; try assumption; try exact Logic.I; [apply gaussian_family; assumption|].
    do 9 eexists. split; [exact E|]. split; [apply gaussian_fits; assumption|]. split; [apply gaussian_loses; assumption|].
    split; [intros x _; destruct adj'; apply gaussian_ratio, Hb | intros; exact Logic.I].
  - apply dlaplace_ok in H. destruct H as [(Ha & Hs & Hq) E].
    assert (F' = dlaplace_law a) as -> by (apply functional_extensionality, (integer_noise_unique (dlaplace_weights a)); [exact HF | apply dlaplace_noise, Ha]).
    split; [assumption | apply IZR_lt, Hs | eexists; reflexivity | apply dlaplace_family, Ha|].
    do 9 eexists. split; [exact E|]. split; [apply dlaplace_fits; assumption|]. split; [apply dlaplace_loses; assumption|].
    split; [intros x Hx; destruct adj'; apply dlaplace_ratio; [apply int_pt_shift|]; exact Hx|].
    intros x [z ->] _. cbn. unfold int_pt. rewrite Rfloor_IZR. reflexivity.
  - apply dgauss_ok in H. destruct H as [(Hb & Hs & HT & Hq) E].
    assert (F' = dgaussian_law sigma T) as -> by (apply functional_extensionality, (integer_noise_unique (dgaussian_weights sigma T)); [exact HF | apply dgaussian_noise; (assumption || lia)]).
    split; [assumption | apply IZR_lt, Hs | eexists; reflexivity | apply dgaussian_family; (assumption || lia)|].
    do 9 eexists. split; [exact E|]. split; [apply dgauss_fits; (assumption || lia)|]. split; [apply dgauss_loses; assumption|].
    split.
    { intros x [Hx Hr]. destruct adj'.
      + apply dg_ratio_of; assumption.
      + replace x with (x + IZR s' - IZR s') by ring. apply dg_ratio_of; assumption. }
    intros x [z ->] P. assert (W : forall k, 0 <= dgaussian_weights sigma T k).
    { intros k. unfold dgaussian_weights. destruct (Z.abs k <=? T)%Z; [left; apply exp_pos | lra]. }
    assert (R : match adj' with REMOVE => (- T <= z <= T \/ - T <= z + s' <= T)%Z | ADD => (- T <= z <= T \/ - T <= z - s' <= T)%Z end).
    { destruct adj'; cbn [upper_density lower_density] in P; rewrite ?Rfloor_IZR, <- ?plus_IZR, <- ?minus_IZR, ?Rfloor_IZR in P;
        (destruct P as [P|P]; [|]); try (left; apply (dg_weight_in sigma); assumption);
        apply density_in in P; try assumption; try apply W; (destruct P as [P|P]; apply dg_weight_in in P; [left | right]; assumption). }
    unfold dg_pt. destruct adj'; (split; [unfold int_pt; rewrite <- ?plus_IZR, Rfloor_IZR; reflexivity|]);
      rewrite <- ?opp_IZR, <- ?plus_IZR; split; apply IZR_le; lia.
Qed.
