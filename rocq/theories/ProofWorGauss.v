(** Even central moments of the likelihood ratio of Gaussian queries: the forward differences of
    the exponentials that the accountant computes for sampling without replacement. *)
From Verif Require Import Base XReal SpecDP SpecRenyi SpecRdp SpecMech SpecRun ProofDP ProofPeak ProofShape ProofGaussRdp ProofRun.
Local Open Scope R_scope.

(** ** Forward differences *)
Lemma fdiff_ext f g l : (forall k, f k = g k) -> forall x, fdiff f l x = fdiff g l x.
Proof. intros E. induction l as [|l IH]; intros x; cbn [fdiff]; [apply E|]. rewrite !IH. reflexivity. Qed.
Lemma fdiff_pow u l : forall x, fdiff (fun k => u ^ k) l x = u ^ x * (u - 1) ^ l.
Proof. induction l as [|l IH]; intros x; cbn [fdiff pow]; [ring|]. rewrite !IH. cbn [pow]. ring. Qed.
Lemma fdiff_lin a b f g l : forall x, fdiff (fun k => a * f k + b * g k) l x = a * fdiff f l x + b * fdiff g l x.
Proof. induction l as [|l IH]; intros x; cbn [fdiff]; [reflexivity|]. rewrite !IH. ring. Qed.
Lemma fdiff_scal a f l x : fdiff (fun k => a * f k) l x = a * fdiff f l x.
Proof.
  rewrite (fdiff_ext _ (fun k => a * f k + 0 * f k)) by (intros; ring). rewrite fdiff_lin. ring.
Qed.
Lemma fdiff_rsum {A} (f : A -> nat -> R) os l : forall x, fdiff (fun k => rsum (fun o => f o k) os) l x = rsum (fun o => fdiff (f o) l x) os.
Proof.
  induction l as [|l IH]; intros x; cbn [fdiff]; [reflexivity|]. rewrite !IH, <- rsum_minus. reflexivity.
Qed.
Lemma fdiff_slope u l : forall x, fdiff (fun k => INR k * u ^ (k - 1)) l x = INR x * u ^ (x - 1) * (u - 1) ^ l + INR l * (u ^ x * (u - 1) ^ (l - 1)).
Proof.
  induction l as [|l IH]; intros x; cbn [fdiff pow]; [cbn; ring|]. rewrite !IH, !S_INR. replace (S x - 1)%nat with x by lia. replace (S l - 1)%nat with l by lia.
  assert (X : INR x * u ^ (x - 1) * u = INR x * u ^ x).
  { destruct x as [|x]; [cbn; ring|]. replace (S x - 1)%nat with x by lia. cbn [pow]. ring. }
  assert (Y : INR l * ((u - 1) ^ (l - 1) * (u - 1)) = INR l * (u - 1) ^ l).
  { destruct l as [|l]; [cbn; ring|]. replace (S l - 1)%nat with l by lia. cbn [pow]. ring. }
  cbn [pow].
  transitivity ((INR x + 1) * u ^ x * (u - 1) ^ l - INR x * u ^ (x - 1) * (u - 1) ^ l + u ^ x * (INR l * ((u - 1) ^ (l - 1) * (u - 1)))); [ring|].
  rewrite Y. replace (INR x * u ^ (x - 1) * ((u - 1) * (u - 1) ^ l)) with (INR x * u ^ (x - 1) * u * (u - 1) ^ l - INR x * u ^ (x - 1) * (u - 1) ^ l) by ring.
  rewrite X. ring.
Qed.

(** ** Even powers are convex *)
Definition even (l : nat) : Prop := exists j, l = (2 * j)%nat.
Lemma even_pow_nonneg x l : even l -> 0 <= x ^ l.
Proof. intros [j ->]. rewrite pow_mult. apply pow_le. apply pow2_ge_0. Qed.
Lemma bernoulli_nat x n : -1 <= x -> 1 + INR n * x <= (1 + x) ^ n.
Proof.
  intros H. induction n as [|n IH]; [cbn; lra|]. rewrite S_INR. cbn [pow].
  assert (0 <= INR n) by apply pos_INR. assert ((1 + x) * (1 + INR n * x) <= (1 + x) * (1 + x) ^ n) by (apply Rmult_le_compat_l; lra).
  assert (0 <= INR n * (x * x)) by (apply Rmult_le_pos; nra). nra.
Qed.
Lemma even_tangent a b l : even l -> b ^ l + INR l * b ^ (l - 1) * (a - b) <= a ^ l.
Proof.
  intros [j ->]. destruct (Req_dec b 0) as [->|N].
  - destruct j as [|j]; [change (2 * 0)%nat with 0%nat; cbn [pow INR Nat.sub]; lra|].
    rewrite !pow_i by lia. rewrite Rmult_0_r, Rmult_0_l, Rplus_0_r. apply even_pow_nonneg. exists (S j). reflexivity.
  - set (x := a / b - 1). assert (Ea : a = b * (1 + x)) by (unfold x; field; exact N). rewrite Ea, Rpow_mult_distr.
    assert (B : 1 + INR (2 * j) * x <= (1 + x) ^ (2 * j)).
    { rewrite pow_mult. replace ((1 + x) ^ 2) with (1 + (2 * x + x * x)) by ring.
      pose proof (Rle_0_sqr (x + 1)) as Sq. unfold Rsqr in Sq. eapply Rle_trans; [|apply bernoulli_nat; lra]. rewrite mult_INR. cbn [INR]. assert (0 <= INR j) by apply pos_INR. assert (0 <= INR j * (x * x)) by (apply Rmult_le_pos; nra). lra. }
    assert (E : INR (2 * j) * b ^ (2 * j - 1) * b = INR (2 * j) * b ^ (2 * j)).
    { destruct j as [|j]; [change (2 * 0)%nat with 0%nat; cbn [pow INR Nat.sub]; ring|]. replace (2 * S j)%nat with (S (2 * S j - 1)) at 4 by lia. cbn [pow]. ring. }
    replace (b * (1 + x) - b) with (b * x) by ring. rewrite <- Rmult_assoc, E.
    pose proof (even_pow_nonneg b (2 * j) ltac:(exists j; reflexivity)) as P.
    replace (b ^ (2 * j) + INR (2 * j) * b ^ (2 * j) * x) with (b ^ (2 * j) * (1 + INR (2 * j) * x)) by ring. apply Rmult_le_compat_l; assumption.
Qed.

(** ** Antiderivatives with limits *)
Definition prim (G g : R -> R) (p : R) : Prop :=
  (forall x, derivable_pt_lim G x (g x))
  /\ (forall e, 0 < e -> exists m, forall x, x <= m -> Rabs (G x) <= e)
  /\ (forall e, 0 < e -> exists m, forall x, m <= x -> Rabs (G x - p) <= e).
Lemma prim_integral G g p : prim G g p -> integral_is g p.
Proof. intros H. exists G. exact H. Qed.
Lemma prim_plus G H g h p q : prim G g p -> prim H h q -> prim (fun x => G x + H x) (fun x => g x + h x) (p + q).
Proof.
  intros (DG & LG & UG) (DH & LH & UH). split; [|split].
  - intros x. apply derivable_pt_lim_plus; [apply DG | apply DH].
  - intros e He. destruct (LG (e/2)) as [m1 M1]; [lra|]. destruct (LH (e/2)) as [m2 M2]; [lra|]. exists (Rmin m1 m2). intros x Hx.
    pose proof (Rmin_l m1 m2). pose proof (Rmin_r m1 m2). pose proof (M1 x ltac:(lra)). pose proof (M2 x ltac:(lra)).
    eapply Rle_trans; [apply Rabs_triang|lra].
  - intros e He. destruct (UG (e/2)) as [m1 M1]; [lra|]. destruct (UH (e/2)) as [m2 M2]; [lra|]. exists (Rmax m1 m2). intros x Hx.
    pose proof (Rmax_l m1 m2). pose proof (Rmax_r m1 m2). pose proof (M1 x ltac:(lra)). pose proof (M2 x ltac:(lra)).
    replace (G x + H x - (p + q)) with ((G x - p) + (H x - q)) by ring. eapply Rle_trans; [apply Rabs_triang|lra].
Qed.
Lemma prim_scal a G g p : prim G g p -> prim (fun x => a * G x) (fun x => a * g x) (a * p).
Proof.
  intros (DG & LG & UG). assert (A : 0 < Rabs a + 1) by (pose proof (Rabs_pos a); lra).
  assert (K : forall y e, 0 < e -> Rabs y <= e / (Rabs a + 1) -> Rabs (a * y) <= e).
  { intros y e He H. rewrite Rabs_mult. apply (Rmult_le_compat_l (Rabs a + 1)) in H; [|lra].
    replace ((Rabs a + 1) * (e / (Rabs a + 1))) with e in H by (field; lra). pose proof (Rabs_pos y). nra. }
  split; [|split].
  - intros x. apply (derivable_pt_lim_scal G a), DG.
  - intros e He. destruct (LG (e / (Rabs a + 1))) as [m M]; [apply Rdiv_lt_0_compat; lra|]. exists m. intros x Hx. apply K, M; assumption.
  - intros e He. destruct (UG (e / (Rabs a + 1))) as [m M]; [apply Rdiv_lt_0_compat; lra|]. exists m. intros x Hx.
    rewrite <- Rmult_minus_distr_l. apply K, M; assumption.
Qed.
Lemma prim_ext G H g h p : (forall x, G x = H x) -> (forall x, g x = h x) -> prim G g p -> prim H h p.
Proof.
  intros E1 E2 (D & L & U). split; [|split].
  - intros x. rewrite <- E2. specialize (D x). intros e He. destruct (D e He) as [del Hd]. exists del. intros y Hy Hl. rewrite <- !E1. apply Hd; assumption.
  - intros e He. destruct (L e He) as [m M]. exists m. intros x Hx. rewrite <- E1. apply M, Hx.
  - intros e He. destruct (U e He) as [m M]. exists m. intros x Hx. rewrite <- E1. apply M, Hx.
Qed.
Lemma prim_minus G H g h p q : prim G g p -> prim H h q -> prim (fun x => G x - H x) (fun x => g x - h x) (p - q).
Proof.
  intros A B. replace (p - q) with (p + -1 * q) by ring. eapply prim_ext; [| |apply (prim_plus _ _ _ _ _ _ A (prim_scal (-1) _ _ _ B))]; intros x; cbn; ring.
Qed.
Lemma prim_fdiff (G g : nat -> R -> R) p l : (forall k, prim (G k) (g k) (p k)) ->
  forall j, prim (fun x => fdiff (fun k => G k x) l j) (fun x => fdiff (fun k => g k x) l j) (fdiff p l j).
Proof. intros H. induction l as [|l IH]; intros j; cbn [fdiff]; [apply H|]. apply prim_minus; apply IH. Qed.
Lemma prim_mono G g p : prim G g p -> (forall x, 0 <= g x) -> forall x y, x <= y -> G x <= G y.
Proof. intros (D & _) H x y L. apply (deriv_nonneg G g x y D L). intros z _. apply H. Qed.
Lemma prim_bounds G g p : prim G g p -> (forall x, 0 <= g x) -> forall x, 0 <= G x <= p.
Proof.
  intros P H x. pose proof (prim_mono G g p P H) as M. destruct P as (_ & L & U). split; apply Rnot_lt_le; intros N.
  - destruct (L (- G x / 2)) as [m Hm]; [lra|]. pose proof (Rmin_l m x). pose proof (Rmin_r m x).
    specialize (Hm (Rmin m x) ltac:(lra)). specialize (M (Rmin m x) x ltac:(lra)). destruct (Rabs_def2 (G (Rmin m x)) (- G x) ltac:(lra)). lra.
  - destruct (U ((G x - p) / 2)) as [m Hm]; [lra|]. pose proof (Rmax_l m x). pose proof (Rmax_r m x).
    specialize (Hm (Rmax m x) ltac:(lra)). specialize (M x (Rmax m x) ltac:(lra)). destruct (Rabs_def2 (G (Rmax m x) - p) (G x - p) ltac:(lra)). lra.
Qed.
(** Linear tests of two laws and a third function, on cells. *)
Definition ends (M : R -> R) (K : R) (x : xr) : R := match x with Fin a => M a | PInf => K | _ => 0 end.
Lemma ends_mono G g p : prim G g p -> (forall x, 0 <= g x) -> forall x y, xleb x y = true -> ends G p x <= ends G p y.
Proof.
  intros P H x y L. pose proof (prim_bounds G g p P H) as B. pose proof (prim_mono G g p P H) as M.
  destruct x as [x| | |], y as [y| | |]; cbn in *; try discriminate; try lra; try apply B.
  - apply M. revert L. destruct (Rleb_spec x y); [auto | discriminate].
  - pose proof (B 0). lra.
Qed.
Lemma cdf_prim F f : is_cdf F -> (forall x, derivable_pt_lim F x (f x)) -> prim F f 1.
Proof.
  intros (B & M & L & U) D. split; [exact D|]. split; intros e He.
  - destruct (L e He) as [m Hm]. exists m. intros x Hx. specialize (M x m Hx). specialize (B x). rewrite Rabs_pos_eq; lra.
  - destruct (U e He) as [m Hm]. exists m. intros x Hx. specialize (M m x Hx). specialize (B x). rewrite Rabs_left1; lra.
Qed.

Section Normal.
  Context (Phi : R -> R) (c0 : R) (Hc : 0 < c0) (HC : is_cdf Phi) (HD : forall x, derivable_pt_lim Phi x (c0 * exp (- (x * x) / 2))).
  Definition bell (v w x : R) : R := c0 * / w * exp (- ((x - v) / w * ((x - v) / w)) / 2).
  Definition ratio (v d w x : R) : R := exp (d / w * ((x - v) / w) - d / w * (d / w) / 2).
  Definition em (h : R) (k : nat) : R := exp (INR k * (INR k - 1) * h).
  Lemma bell_pos v w x : 0 < w -> 0 < bell v w x.
  Proof. intros Hw. apply Rmult_lt_0_compat; [apply Rmult_lt_0_compat; [exact Hc | apply Rinv_0_lt_compat, Hw] | apply exp_pos]. Qed.
  Lemma exp_pow x k : exp x ^ k = exp (INR k * x).
  Proof. induction k as [|k IH]; [cbn; rewrite Rmult_0_l, exp_0; reflexivity|]. cbn [pow]. rewrite IH, <- exp_plus, S_INR. f_equal. ring. Qed.
  Lemma shift_prim v d w k : 0 < w ->
    prim (fun x => em (d / w * (d / w) / 2) k * Phi ((x - (v + INR k * d)) / w)) (fun x => bell v w x * ratio v d w x ^ k) (em (d / w * (d / w) / 2) k).
  Proof.
    intros Hw. set (F := fun x => Phi ((x - (v + INR k * d)) / w)). set (f := fun x => c0 * exp (- ((x - (v + INR k * d)) / w * ((x - (v + INR k * d)) / w)) / 2) * / w).
    assert (PF : prim F f 1).
    { apply cdf_prim; [apply scaled_cdf; assumption|]. intros x. apply (scaled_deriv Phi (fun x => c0 * exp (- (x * x) / 2)) w); [exact Hw | exact HD]. }
    apply (prim_scal (em (d / w * (d / w) / 2) k)) in PF. rewrite Rmult_1_r in PF. eapply prim_ext; [intros x; reflexivity | | exact PF].
    - intros x. cbv beta. unfold f, bell, ratio, em. rewrite exp_pow.
      transitivity (c0 * / w * (exp (INR k * (INR k - 1) * (d / w * (d / w) / 2)) * exp (- ((x - (v + INR k * d)) / w * ((x - (v + INR k * d)) / w)) / 2))); [ring|].
      rewrite (Rmult_assoc (c0 * / w)), <- !exp_plus. do 2 f_equal. field. lra.
  Qed.

  (** The even moments of c times the ratio, minus 1. *)
  Definition central (h : R) (l : nat) (c : R) : R := fdiff (fun k => c ^ k * em h k) l 0.
  Lemma central_prim v d w l c : 0 < w ->
    prim (fun x => fdiff (fun k => c ^ k * (em (d / w * (d / w) / 2) k * Phi ((x - (v + INR k * d)) / w))) l 0)
         (fun x => bell v w x * (c * ratio v d w x - 1) ^ l) (central (d / w * (d / w) / 2) l c).
  Proof.
    intros Hw. eapply prim_ext; [intros x; reflexivity | | apply (prim_fdiff (fun k x => c ^ k * (em (d / w * (d / w) / 2) k * Phi ((x - (v + INR k * d)) / w)))
      (fun k x => c ^ k * (bell v w x * ratio v d w x ^ k)) (fun k => c ^ k * em (d / w * (d / w) / 2) k))].
    - intros x. cbv beta. rewrite (fdiff_ext _ (fun k => bell v w x * (c * ratio v d w x) ^ k)) by (intros k; rewrite Rpow_mult_distr; ring).
      rewrite fdiff_scal, fdiff_pow. cbn [pow]. ring.
    - intros k. apply prim_scal, shift_prim, Hw.
  Qed.
  Lemma cells_central v d w l c cuts : 0 < w -> even l -> StronglySorted Rlt cuts ->
    let E := observe (fun x => Phi ((x - (v + d)) / w)) (fun x => Phi ((x - v) / w)) cuts in
    rsum (fun o => prQ E o * (c * (prP E o / prQ E o) - 1) ^ l) (outs E) <= central (d / w * (d / w) / 2) l c.
  Proof.
    intros Hw He HS E. set (h := d / w * (d / w) / 2). pose proof (central_prim v d w l c Hw) as PM. fold h in PM.
    set (M := fun x => fdiff _ l 0) in PM.
    assert (Pos : forall x, 0 <= bell v w x * (c * ratio v d w x - 1) ^ l).
    { intros x. apply Rmult_le_pos; [left; apply bell_pos, Hw | apply even_pow_nonneg, He]. }
    replace (central h l c) with (ends M (central h l c) PInf - ends M (central h l c) MInf) by (cbn; ring).
    rewrite <- (cells_telescope (ends M (central h l c)) cuts). apply rsum_le. intros o Ho.
    pose proof (cells_ordered _ HS _ Ho) as L. set (q := prQ E o). set (p := prP E o).
    pose proof (ends_mono _ _ _ PM Pos _ _ L) as MM.
    destruct (Req_dec q 0) as [Z|N]; [rewrite Z, Rmult_0_l; lra|].
    set (t := p / q). set (A := INR l * (c * t - 1) ^ (l - 1) * c). set (B := (c * t - 1) ^ l - A * t).
    assert (PQ : prim (fun x => Phi ((x - v) / w)) (bell v w) 1).
    { eapply prim_ext; [| |apply (cdf_prim (fun x => Phi ((x - v) / w)) (fun x => c0 * exp (- ((x - v) / w * ((x - v) / w)) / 2) * / w))]; [reflexivity| | |].
      - intros x. unfold bell. ring.
      - apply scaled_cdf; assumption.
      - intros x. apply (scaled_deriv Phi (fun x => c0 * exp (- (x * x) / 2)) w); [exact Hw | exact HD]. }
    assert (PP : prim (fun x => Phi ((x - (v + d)) / w)) (fun x => bell v w x * ratio v d w x) 1).
    { pose proof (shift_prim v d w 1 Hw) as S. unfold em in S. cbn [INR] in S. replace (1 * (1 - 1) * (d / w * (d / w) / 2)) with 0 in S by ring. rewrite exp_0 in S.
      eapply prim_ext; [| |exact S]; intros x; cbv beta; [rewrite !Rmult_1_l; reflexivity | cbn [pow]; ring]. }
    pose proof (prim_minus _ _ _ _ _ _ PM (prim_plus _ _ _ _ _ _ (prim_scal A _ _ _ PP) (prim_scal B _ _ _ PQ))) as PN.
    assert (NN : forall x, 0 <= bell v w x * (c * ratio v d w x - 1) ^ l - (A * (bell v w x * ratio v d w x) + B * bell v w x)).
    { intros x. set (r := ratio v d w x). pose proof (bell_pos v w x Hw) as Bp. pose proof (even_tangent (c * r - 1) (c * t - 1) l He) as T.
      apply Rle_trans with (bell v w x * ((c * r - 1) ^ l - ((c * t - 1) ^ l + INR l * (c * t - 1) ^ (l - 1) * (c * r - 1 - (c * t - 1))))); [apply Rmult_le_pos; lra|].
      right. unfold B, A. set (b := bell v w x). set (X1 := (c * r - 1) ^ l). set (X2 := (c * t - 1) ^ l). set (X3 := (c * t - 1) ^ (l - 1)). ring. }
    pose proof (ends_mono _ _ _ PN NN _ _ L) as EN. clear PN NN PM PQ PP Pos.
    assert (X : ends (fun x => M x - (A * Phi ((x - (v + d)) / w) + B * Phi ((x - v) / w))) (central h l c - (A * 1 + B * 1)) (snd o)
       - ends (fun x => M x - (A * Phi ((x - (v + d)) / w) + B * Phi ((x - v) / w))) (central h l c - (A * 1 + B * 1)) (fst o)
       = ends M (central h l c) (snd o) - ends M (central h l c) (fst o) - (A * p + B * q)).
    { unfold p, q, E. cbn [prP prQ observe]. destruct (fst o), (snd o); cbn [ends at_end]; ring. }
    assert (Y : q * (c * (p / q) - 1) ^ l = A * p + B * q).
    { fold t. unfold B. replace p with (t * q) by (unfold t; field; exact N). ring. }
    change (q * (c * (p / q) - 1) ^ l <= ends M (central h l c) (snd o) - ends M (central h l c) (fst o)). rewrite Y.
    change (A * p + B * q <= ends M (central h l c) (snd o) - ends M (central h l c) (fst o)). lra.
  Qed.
  (** Laws of the ratio with drift [h], by its integrals. *)
  Lemma em_integral h : 0 <= h -> exists r : R -> R, (forall z, 0 < r z) /\ forall k, prim (fun x => em h k * Phi ((x - (0 + INR k * sqrt (2 * h))) / 1)) (fun z => bell 0 1 z * r z ^ k) (em h k).
  Proof.
    intros Hh. exists (ratio 0 (sqrt (2 * h)) 1). split; [intros z; apply exp_pos|]. intros k. pose proof (shift_prim 0 (sqrt (2 * h)) 1 k Rlt_0_1) as S.
    replace (sqrt (2 * h) / 1 * (sqrt (2 * h) / 1) / 2) with h in S; [exact S|].
    unfold Rdiv. rewrite Rinv_1, !Rmult_1_r, sqrt_sqrt by lra. field.
  Qed.
  Lemma em_plus h h' k : em (h + h') k = em h k * em h' k.
  Proof. unfold em. rewrite <- exp_plus. f_equal. ring. Qed.
  Lemma central_gap h l c y t : 0 <= h -> even l ->
    0 <= fdiff (fun k => c ^ k * em h k * (y ^ k - t ^ k - INR k * t ^ (k - 1) * (y - t))) l 0.
  Proof.
    intros Hh He. destruct (em_integral h Hh) as (r & Hr & I).
    pose proof (prim_fdiff (fun k x => c ^ k * (y ^ k - t ^ k - INR k * t ^ (k - 1) * (y - t)) * (em h k * Phi ((x - (0 + INR k * sqrt (2 * h))) / 1)))
      (fun k z => c ^ k * (y ^ k - t ^ k - INR k * t ^ (k - 1) * (y - t)) * (bell 0 1 z * r z ^ k))
      (fun k => c ^ k * (y ^ k - t ^ k - INR k * t ^ (k - 1) * (y - t)) * em h k) l (fun k => prim_scal _ _ _ _ (I k)) 0%nat) as P.
    apply prim_integral in P. rewrite (fdiff_ext _ (fun k => c ^ k * (y ^ k - t ^ k - INR k * t ^ (k - 1) * (y - t)) * em h k)) by (intros; ring).
    eapply integral_nonneg; [exact P|]. intros z. cbv beta. pose proof (bell_pos 0 1 z Rlt_0_1) as Bp. set (b := bell 0 1 z) in *. set (u := c * r z).
    rewrite (fdiff_ext _ (fun k => b * ((u * y) ^ k) + (- b) * (1 * (u * t) ^ k + (u * (y - t)) * (INR k * (u * t) ^ (k - 1))))).
    - rewrite fdiff_lin, fdiff_lin, !fdiff_pow, fdiff_slope. cbn [pow INR].
      pose proof (even_tangent (u * y - 1) (u * t - 1) l He) as T.
      replace (b * (1 * (u * y - 1) ^ l) + - b * (1 * (1 * (u * t - 1) ^ l) + u * (y - t) * (0 * (u * t) ^ (0 - 1) * (u * t - 1) ^ l + INR l * (1 * (u * t - 1) ^ (l - 1)))))
        with (b * ((u * y - 1) ^ l - ((u * t - 1) ^ l + INR l * (u * t - 1) ^ (l - 1) * (u * y - 1 - (u * t - 1))))) by ring.
      apply Rmult_le_pos; lra.
    - intros k. unfold u. rewrite !Rpow_mult_distr. destruct k as [|k]; [cbn [pow INR Nat.sub]; ring|]. replace (S k - 1)%nat with k by lia. cbn [pow]. ring.
  Qed.
  Lemma central_mono h h' l c : 0 <= h -> h <= h' -> even l -> central h l c <= central h' l c.
  Proof.
    intros Hh L He. destruct (em_integral (h' - h) ltac:(lra)) as (r & Hr & I).
    pose proof (prim_fdiff _ _ _ l (fun k => prim_scal (c ^ k * em h k) _ _ _ (prim_minus _ _ _ _ _ _ (prim_minus _ _ _ _ _ _ (I k) (I 0%nat))
       (prim_scal (INR k) _ _ _ (prim_minus _ _ _ _ _ _ (I 1%nat) (I 0%nat))))) 0%nat) as P.
    apply prim_integral in P. cbv beta in P. assert (E0 : em (h' - h) 0 = 1) by (unfold em; cbn [INR]; rewrite !Rmult_0_l; apply exp_0).
    assert (E1 : em (h' - h) 1 = 1) by (unfold em; cbn [INR]; replace (1 * (1 - 1) * (h' - h)) with 0 by ring; apply exp_0). rewrite E0, E1 in P.
    assert (G : 0 <= fdiff (fun k => c ^ k * em h k * (em (h' - h) k - 1 - INR k * (1 - 1))) l 0).
    { eapply integral_nonneg; [exact P|]. intros z. cbv beta. pose proof (bell_pos 0 1 z Rlt_0_1) as Bp. set (b := bell 0 1 z) in *.
      rewrite (fdiff_ext _ (fun k => b * (c ^ k * em h k * (r z ^ k - 1 ^ k - INR k * 1 ^ (k - 1) * (r z - 1))))).
      - rewrite fdiff_scal. apply Rmult_le_pos; [lra | apply central_gap; assumption].
      - intros k. rewrite !pow1. cbn [pow]. ring. }
    rewrite (fdiff_ext _ (fun k => 1 * (c ^ k * em h' k) + -1 * (c ^ k * em h k))) in G.
    - rewrite fdiff_lin in G. unfold central. lra.
    - intros k. replace (em h' k) with (em h k * em (h' - h) k); [ring|]. rewrite <- em_plus. f_equal. ring.
  Qed.
  (** A second computation next to the first. *)
  Lemma central_seq (E1 E2 : exper) h1 h2 l c : 0 <= h2 ->
    (forall o, In o (outs E1) -> 0 <= prQ E1 o) ->
    (forall c, rsum (fun o => prQ E1 o * (c * (prP E1 o / prQ E1 o) - 1) ^ l) (outs E1) <= central h1 l c) ->
    (forall c, rsum (fun o => prQ E2 o * (c * (prP E2 o / prQ E2 o) - 1) ^ l) (outs E2) <= central h2 l c) ->
    let E := seq_exper E1 (fun _ => E2) in
    rsum (fun o => prQ E o * (c * (prP E o / prQ E o) - 1) ^ l) (outs E) <= central (h1 + h2) l c.
  Proof.
    intros Hh Q1 H1 H2 E. destruct (em_integral h2 Hh) as (r & Hr & I).
    unfold E. rewrite (rsum_seq E1 (fun _ => E2)).
    apply Rle_trans with (rsum (fun o => prQ E1 o * central h2 l (c * (prP E1 o / prQ E1 o))) (outs E1)).
    - apply rsum_le. intros o1 Ho1. cbn [prP prQ seq_exper projT1 projT2]. specialize (Q1 o1 Ho1).
      rewrite (rsum_ext _ (fun o2 => prQ E1 o1 * (prQ E2 o2 * (c * (prP E1 o1 / prQ E1 o1) * (prP E2 o2 / prQ E2 o2) - 1) ^ l))).
      + rewrite rsum_scal. apply Rmult_le_compat_l; [exact Q1 | apply H2].
      + intros o2 _. destruct (Req_dec (prQ E1 o1) 0) as [->|N1]; [ring|]. destruct (Req_dec (prQ E2 o2) 0) as [->|N2]; [ring|].
        rewrite Rmult_assoc. do 2 f_equal. f_equal. f_equal. field. auto.
    - assert (A : integral_is (fun z => bell 0 1 z * rsum (fun o => prQ E1 o * (c * r z * (prP E1 o / prQ E1 o) - 1) ^ l) (outs E1))
                    (rsum (fun o => prQ E1 o * central h2 l (c * (prP E1 o / prQ E1 o))) (outs E1))).
      { eapply integral_ext; [|apply (integral_rsum (fun o z => prQ E1 o * (bell 0 1 z * (c * (prP E1 o / prQ E1 o) * r z - 1) ^ l))
           (fun o => prQ E1 o * central h2 l (c * (prP E1 o / prQ E1 o))))].
        - intros z. cbv beta. rewrite <- rsum_scal. apply rsum_ext. intros o _. replace (c * (prP E1 o / prQ E1 o) * r z) with (c * r z * (prP E1 o / prQ E1 o)) by ring. ring.
        - intros o _. set (b := c * (prP E1 o / prQ E1 o)).
          pose proof (prim_fdiff _ _ _ l (fun k => prim_scal (b ^ k) _ _ _ (I k)) 0%nat) as P. apply (prim_scal (prQ E1 o)) in P. apply prim_integral in P.
          eapply integral_ext; [|exact P]. intros z. cbv beta. f_equal.
          rewrite (fdiff_ext _ (fun k => bell 0 1 z * (b * r z) ^ k)) by (intros k; rewrite Rpow_mult_distr; ring). rewrite fdiff_scal, fdiff_pow. cbn [pow]. ring. }
      assert (B : integral_is (fun z => bell 0 1 z * central h1 l (c * r z)) (central (h1 + h2) l c)).
      { pose proof (prim_fdiff _ _ _ l (fun k => prim_scal (c ^ k * em h1 k) _ _ _ (I k)) 0%nat) as P. apply prim_integral in P.
        unfold central. rewrite (fdiff_ext _ (fun k => c ^ k * em h1 k * em h2 k)) by (intros k; rewrite em_plus; ring).
        eapply integral_ext; [|exact P]. intros z. cbv beta. rewrite <- fdiff_scal. apply fdiff_ext. intros k. rewrite Rpow_mult_distr. ring. }
      rewrite <- (Rmult_1_l (central (h1 + h2) l c)). eapply (integral_le _ _ _ _ 1 0 A B). intros z. rewrite Rplus_0_r, Rmult_1_l.
      apply Rmult_le_compat_l; [left; apply bell_pos, Rlt_0_1 | apply H1].
  Qed.
End Normal.
