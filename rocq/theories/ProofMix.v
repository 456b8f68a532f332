(** Pairs of distributions whose likelihood ratio decreases along the line. *)
From Coq Require Import Lra.
From Verif Require Import Base XReal TypesAdjacency SpecDP SpecMech SpecMixture ProofDP ProofPeak.

Section Ratio.
  Context (U L loss : R -> R) (Lip : R) (HLip : 0 <= Lip).
  Hypothesis CU : is_cdf U.
  Hypothesis CL : is_cdf L.
  Hypothesis ratio : forall a b, a <= b -> exp (loss b) * (L b - L a) <= U b - U a /\ U b - U a <= exp (loss a) * (L b - L a).
  Hypothesis slope : forall a b, a <= b -> 0 <= loss a - loss b <= Lip * (b - a).

  Lemma gap_up l x y : x <= y -> l <= loss y -> gap U L (exp l) x <= gap U L (exp l) y.
  Proof.
    intros H E. destruct (ratio x y H) as [R _]. pose proof (exp_le _ _ E). destruct CL as (_ & M & _). pose proof (M x y H). unfold gap.
    assert (exp l * (L y - L x) <= exp (loss y) * (L y - L x)) by (apply Rmult_le_compat_r; lra). lra.
  Qed.
  Lemma gap_down l x y : x <= y -> loss x <= l -> gap U L (exp l) y <= gap U L (exp l) x.
  Proof.
    intros H E. destruct (ratio x y H) as [_ R]. pose proof (exp_le _ _ E). destruct CL as (_ & M & _). pose proof (M x y H). unfold gap.
    assert (exp (loss x) * (L y - L x) <= exp l * (L y - L x)) by (apply Rmult_le_compat_r; lra). lra.
  Qed.
  Lemma uni_at l p : loss p = l -> uni (gap U L (exp l)) (Fin p).
  Proof.
    intros E. split; [discriminate|]. split; intros x y H K; apply xleb_fin in K.
    - apply gap_up; [assumption|]. destruct (slope y p K). lra.
    - apply gap_down; [assumption|]. destruct (slope p x K). lra.
  Qed.
  Lemma loss_continuous : continuity loss.
  Proof.
    intros x e He. exists (e / (Lip + 1)). split; [apply Rdiv_lt_0_compat; lra|]. intros y (_ & H). cbn in *. unfold R_dist in *.
    assert (K : forall a b, Rabs (loss a - loss b) <= Lip * Rabs (a - b)).
    { intros a b. destruct (Rle_lt_dec a b) as [A|A].
      - destruct (slope a b A). rewrite Rabs_pos_eq by lra. rewrite Rabs_minus_sym, Rabs_pos_eq by lra. lra.
      - destruct (slope b a) as [? ?]; [lra|]. rewrite Rabs_minus_sym, Rabs_pos_eq by lra. rewrite Rabs_pos_eq by lra. lra. }
    eapply Rle_lt_trans; [apply K|]. pose proof (Rabs_pos (y - x)).
    apply Rle_lt_trans with ((Lip + 1) * Rabs (y - x)); [nra|].
    apply (Rmult_lt_compat_l (Lip + 1)) in H; [|lra]. replace ((Lip + 1) * (e / (Lip + 1))) with e in H by (field; lra). exact H.
  Qed.
  Lemma cut_exists l b0 b1 : b0 <= b1 -> loss b1 <= l <= loss b0 -> exists p, b0 <= p <= b1 /\ loss p = l.
  Proof.
    intros H (A & B). destruct (Req_dec (loss b0) l) as [E|N0]; [exists b0; split; [lra | exact E]|].
    destruct (Req_dec (loss b1) l) as [E|N1]; [exists b1; split; [lra | exact E]|].
    assert (b0 < b1) by (destruct (Rle_lt_or_eq_dec _ _ H) as [|E]; [assumption | subst; lra]).
    destruct (IVT (fun x => l - loss x) b0 b1) as (p & Hp & E); try assumption; try lra.
    - apply continuity_minus; [apply continuity_const; intros ? ?; reflexivity | apply loss_continuous].
    - exists p. split; [exact Hp | lra].
  Qed.
  (** the gap at two points with nearly the same loss *)
  Lemma gap_close l k x y : 0 <= k -> Rabs (loss x - l) <= k -> Rabs (loss y - l) <= k ->
    gap U L (exp l) x - gap U L (exp l) y <= (exp k - 1) * Rabs (U x - U y).
  Proof.
    intros Hk Hx Hy. destruct CL as (_ & ML & _). destruct CU as (_ & MU & _).
    pose proof (Rle_abs (loss x - l)). pose proof (Rle_abs (- (loss x - l))). rewrite Rabs_Ropp in *.
    pose proof (Rle_abs (loss y - l)). pose proof (Rle_abs (- (loss y - l))). rewrite Rabs_Ropp in *.
    assert (E1 : 1 <= exp k) by (rewrite <- exp_0; apply exp_le; lra). unfold gap.
    destruct (Rle_lt_dec x y) as [A|A].
    - rewrite Rabs_minus_sym, Rabs_pos_eq by (pose proof (MU x y A); lra). destruct (ratio x y A) as [R _]. pose proof (ML x y A).
      assert (exp l * (L y - L x) <= exp k * (U y - U x)); [|lra].
      apply Rle_trans with (exp k * (exp (loss y) * (L y - L x))); [|apply Rmult_le_compat_l; lra].
      rewrite <- Rmult_assoc, <- exp_plus. apply Rmult_le_compat_r; [lra|]. apply exp_le. lra.
    - assert (A' : y <= x) by lra. rewrite Rabs_pos_eq by (pose proof (MU y x A'); lra). destruct (ratio y x A') as [_ R]. pose proof (ML y x A'). pose proof (MU y x A').
      assert (U x - U y <= exp k * (exp l * (L x - L y))).
      { eapply Rle_trans; [exact R|]. rewrite <- Rmult_assoc, <- exp_plus. apply Rmult_le_compat_r; [lra|]. apply exp_le. lra. }
      set (DU := U x - U y) in *. set (DL := exp l * (L x - L y)) in *. assert (0 <= DL) by (apply Rmult_le_pos; [apply exp_pos_nonneg | lra]).
      assert (DU - DL <= (exp k - 1) * DU); [|unfold DU, DL in *; lra]. destruct (Rle_lt_dec DU DL); [|nra]. assert (0 <= (exp k - 1) * DU) by (apply Rmult_le_pos; unfold DU; lra). lra.
  Qed.

  Definition steep (w prec : R) : Prop := forall a b, a <= b <= a + prec -> U b - U a <= w.
  (** a cutoff between b1 - prec and b1, when the loss crosses [l] between b0 and b1 *)
  Lemma cutoff_near l prec w b0 b1 x : 0 <= prec -> steep w prec -> b0 <= b1 <= b0 + prec -> loss b1 <= l <= loss b0 ->
    b1 - prec <= x <= b1 -> nearly_divergence U L l (gap U L (exp l) x) ((exp (Lip * prec) - 1) * w).
  Proof.
    intros Hp Hw Hb (A & B) Hx. destruct (cut_exists l b0 b1 ltac:(lra) (conj A B)) as (p & Hpp & Ep).
    pose proof (uni_peaked U L (exp l) (Fin p) CU CL (exp_pos_nonneg l) (uni_at l p Ep)) as PK. split.
    - intros cuts S. destruct (divergence_peak U L l (Fin p) PK) as (D & _). eapply Rle_trans; [apply D, S|]. cbn [hend].
      assert (0 <= Lip * prec) by (apply Rmult_le_pos; assumption).
      assert (K : Rabs (loss x - l) <= Lip * prec).
      { destruct (Rle_lt_dec x p) as [C|C].
        - destruct (slope x p C). assert (Lip * (p - x) <= Lip * prec) by (apply Rmult_le_compat_l; lra). rewrite Rabs_pos_eq by lra. lra.
        - destruct (slope p x) as [? ?]; [lra|]. assert (Lip * (x - p) <= Lip * prec) by (apply Rmult_le_compat_l; lra). rewrite Rabs_minus_sym, Rabs_pos_eq by lra. lra. }
      pose proof (gap_close l (Lip * prec) p x ltac:(assumption) ltac:(rewrite Ep, Rminus_diag_eq, Rabs_R0 by reflexivity; assumption) K) as G.
      assert (Rabs (U p - U x) <= w).
      { destruct CU as (_ & MU & _). destruct (Rle_lt_dec x p) as [C|C].
        - rewrite Rabs_pos_eq by (pose proof (MU x p C); lra). apply Hw. lra.
        - rewrite Rabs_minus_sym, Rabs_pos_eq by (pose proof (MU p x ltac:(lra)); lra). apply Hw. lra. }
      assert (1 <= exp (Lip * prec)) by (rewrite <- exp_0; apply exp_le; lra).
      assert ((exp (Lip * prec) - 1) * Rabs (U p - U x) <= (exp (Lip * prec) - 1) * w) by (apply Rmult_le_compat_l; lra). lra.
    - exists [x]. split; [repeat constructor|]. rewrite observe_gap. unfold cells. cbn [map app combine rsum fst snd hend].
      pose proof (pos_nonneg (1 - exp l - gap U L (exp l) x)). pose proof (pos_ge (gap U L (exp l) x - 0)). lra.
  Qed.
End Ratio.
