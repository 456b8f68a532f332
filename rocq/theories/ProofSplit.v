(** Integrals of functions with a jump at 0. *)
From Verif Require Import Base XReal TypesMean SpecDP SpecMech SpecRun SpecMean ProofShape ProofRun ProofSvtDp ProofSvtTight.
Local Open Scope R_scope.

Definition prim0 (G g : R -> R) (p : R) : Prop :=
  (forall x, continuity_pt G x) /\ (forall x, x <> 0 -> derivable_pt_lim G x (g x))
  /\ (forall e, 0 < e -> exists m, forall x, x <= m -> Rabs (G x) <= e)
  /\ (forall e, 0 < e -> exists m, forall x, m <= x -> Rabs (G x - p) <= e).

Lemma incr_open G g a b : a <= b -> (forall x, a < x < b -> derivable_pt_lim G x (g x)) -> (forall x, a <= x <= b -> continuity_pt G x) ->
  (forall x, a < x < b -> 0 <= g x) -> G a <= G b.
Proof.
  intros [L| ->] D C P; [|lra].
  assert (pr1 : forall c, a < c < b -> derivable_pt G c) by (intros c Hc; exists (g c); apply D, Hc).
  assert (pr2 : forall c, a < c < b -> derivable_pt id c) by (intros c _; apply derivable_pt_id).
  destruct (MVT G id a b pr1 pr2 L C) as (c & Hc & E).
  { intros z _. apply derivable_continuous_pt, derivable_pt_id. }
  unfold id in E at 1 2. rewrite (derive_pt_eq_0 G c (g c) (pr1 c Hc) (D c Hc)) in E.
  rewrite (derive_pt_eq_0 id c 1 (pr2 c Hc) (derivable_pt_lim_id c)) in E.
  specialize (P c Hc). assert (0 <= (b - a) * g c) by (apply Rmult_le_pos; lra). lra.
Qed.

Lemma prim0_of G g p : (forall x, derivable_pt_lim G x (g x)) -> (forall e, 0 < e -> exists m, forall x, x <= m -> Rabs (G x) <= e) ->
  (forall e, 0 < e -> exists m, forall x, m <= x -> Rabs (G x - p) <= e) -> prim0 G g p.
Proof.
  intros D L U. split; [|split; [|split; assumption]].
  - intros x. apply derivable_continuous_pt. exists (g x). apply D.
  - intros x _. apply D.
Qed.
Lemma split_of g p : integral_is g p -> integral_split 0 g p.
Proof. intros (G & D & L & U). exists G. apply (prim0_of G g p D L U). Qed.

Lemma split_ext g h p : (forall x, x <> 0 -> g x = h x) -> integral_split 0 g p -> integral_split 0 h p.
Proof. intros E (G & C & D & L). exists G. split; [exact C|]. split; [|exact L]. intros x Hx. rewrite <- (E x Hx). apply D, Hx. Qed.
Lemma split_zero : integral_split 0 (fun _ => 0) 0.
Proof. apply split_of, integral_zero. Qed.
Lemma split_plus g h p q : integral_split 0 g p -> integral_split 0 h q -> integral_split 0 (fun x => g x + h x) (p + q).
Proof.
  intros (G & CG & DG & LG & UG) (H & CH & DH & LH & UH). exists (fun x => G x + H x). split; [|split; [|split]].
  - intros x. apply (continuity_pt_plus G H); [apply CG | apply CH].
  - intros x Hx. apply derivable_pt_lim_plus; [apply DG, Hx | apply DH, Hx].
  - intros e He. destruct (LG (e/2)) as [m1 M1]; [lra|]. destruct (LH (e/2)) as [m2 M2]; [lra|]. exists (Rmin m1 m2). intros x Hx.
    pose proof (Rmin_l m1 m2). pose proof (Rmin_r m1 m2). pose proof (M1 x ltac:(lra)). pose proof (M2 x ltac:(lra)).
    eapply Rle_trans; [apply Rabs_triang|lra].
  - intros e He. destruct (UG (e/2)) as [m1 M1]; [lra|]. destruct (UH (e/2)) as [m2 M2]; [lra|]. exists (Rmax m1 m2). intros x Hx.
    pose proof (Rmax_l m1 m2). pose proof (Rmax_r m1 m2). pose proof (M1 x ltac:(lra)). pose proof (M2 x ltac:(lra)).
    replace (G x + H x - (p + q)) with ((G x - p) + (H x - q)) by ring. eapply Rle_trans; [apply Rabs_triang|lra].
Qed.
Lemma split_scal a g p : integral_split 0 g p -> integral_split 0 (fun x => a * g x) (a * p).
Proof.
  intros (G & CG & DG & LG & UG). assert (A : 0 < Rabs a + 1) by (pose proof (Rabs_pos a); lra).
  assert (K : forall y e, 0 < e -> Rabs y <= e / (Rabs a + 1) -> Rabs (a * y) <= e).
  { intros y e He H. rewrite Rabs_mult. apply (Rmult_le_compat_l (Rabs a + 1)) in H; [|lra].
    replace ((Rabs a + 1) * (e / (Rabs a + 1))) with e in H by (field; lra). pose proof (Rabs_pos y). nra. }
  exists (fun x => a * G x). split; [|split; [|split]].
  - intros x. apply (continuity_pt_scal G a), CG.
  - intros x Hx. apply (derivable_pt_lim_scal G a), DG, Hx.
  - intros e He. destruct (LG (e / (Rabs a + 1))) as [m M]; [apply Rdiv_lt_0_compat; lra|]. exists m. intros x Hx. apply K, M; assumption.
  - intros e He. destruct (UG (e / (Rabs a + 1))) as [m M]; [apply Rdiv_lt_0_compat; lra|]. exists m. intros x Hx.
    rewrite <- Rmult_minus_distr_l. apply K, M; assumption.
Qed.
Lemma split_minus g h p q : integral_split 0 g p -> integral_split 0 h q -> integral_split 0 (fun x => g x - h x) (p - q).
Proof.
  intros A B. replace (p - q) with (p + -1 * q) by ring.
  apply (split_ext (fun x => g x + -1 * h x)); [intros; ring|]. apply split_plus, split_scal; assumption.
Qed.
Lemma split_rsum {A} (g : A -> R -> R) (p : A -> R) l : (forall a, In a l -> integral_split 0 (g a) (p a)) ->
  integral_split 0 (fun x => rsum (fun a => g a x) l) (rsum p l).
Proof.
  induction l as [|a l IH]; intros H; cbn [rsum]; [exact split_zero|].
  apply split_plus; [apply H; left; reflexivity | apply IH; intros b Hb; apply H; right; exact Hb].
Qed.

Lemma le_eps x y : (forall e, 0 < e -> x <= y + e) -> x <= y.
Proof. intros H. apply Rnot_lt_le. intros N. specialize (H ((x - y) / 2) ltac:(lra)). lra. Qed.

(** Comparison on the two sides of 0: [f] is a function with antiderivative [H], of total [m]. *)
Lemma split_compare g h f H p q m K d0 d : integral_split 0 g p -> integral_split 0 h q -> prim0 H f m ->
  (forall k, k < 0 -> g k <= K * h k + d0 * f k) -> (forall k, 0 < k -> g k <= K * h k + d * f k) -> p <= K * q + d * (m - H 0) + d0 * H 0.
Proof.
  intros (G & CG & DG & LG & UG) (Q & CQ & DQ & LQ & UQ) (CH & DH & LH & UH) Ln Lp.
  assert (V0 : forall a b, a <= b -> b <= 0 -> K * Q a + d0 * H a - G a <= K * Q b + d0 * H b - G b).
  { intros a b Hab Hb. apply (incr_open (fun x => K * Q x + d0 * H x - G x) (fun x => K * h x + d0 * f x - g x)); [exact Hab| | |].
    - intros x Hx. apply derivable_pt_lim_minus; [|apply DG; lra].
      apply (derivable_pt_lim_plus (fun x => K * Q x) (fun x => d0 * H x)); [apply (derivable_pt_lim_scal Q K), DQ; lra | apply (derivable_pt_lim_scal H d0), DH; lra].
    - intros x _. apply (continuity_pt_minus (fun x => K * Q x + d0 * H x) G); [|apply CG].
      apply (continuity_pt_plus (fun x => K * Q x) (fun x => d0 * H x)); [apply (continuity_pt_scal Q K), CQ | apply (continuity_pt_scal H d0), CH].
    - intros x Hx. specialize (Ln x ltac:(lra)). lra. }
  assert (W0 : forall a b, 0 <= a -> a <= b -> K * Q a + d * H a - G a <= K * Q b + d * H b - G b).
  { intros a b Ha Hab. apply (incr_open (fun x => K * Q x + d * H x - G x) (fun x => K * h x + d * f x - g x)); [exact Hab| | |].
    - intros x Hx. apply derivable_pt_lim_minus; [|apply DG; lra].
      apply (derivable_pt_lim_plus (fun x => K * Q x) (fun x => d * H x)); [apply (derivable_pt_lim_scal Q K), DQ; lra | apply (derivable_pt_lim_scal H d), DH; lra].
    - intros x _. apply (continuity_pt_minus (fun x => K * Q x + d * H x) G); [|apply CG].
      apply (continuity_pt_plus (fun x => K * Q x) (fun x => d * H x)); [apply (continuity_pt_scal Q K), CQ | apply (continuity_pt_scal H d), CH].
    - intros x Hx. specialize (Lp x ltac:(lra)). lra. }
  apply le_eps. intros e He.
  set (M := Rabs K + Rabs d + Rabs d0 + 3). pose proof (Rabs_pos K) as AK. pose proof (Rabs_pos d) as Ad. pose proof (Rabs_pos d0) as Ad0. assert (HM : 0 < M) by (unfold M; lra).
  set (t := e / (2 * M)). assert (Ht : 0 < t) by (unfold t; apply Rdiv_lt_0_compat; lra).
  assert (Et : 2 * M * t = e) by (unfold t; field; lra).
  destruct (LG t Ht) as [m1 A1]. destruct (LQ t Ht) as [m2 A2]. destruct (LH t Ht) as [m3 A3].
  destruct (UG t Ht) as [n1 B1]. destruct (UQ t Ht) as [n2 B2]. destruct (UH t Ht) as [n3 B3].
  set (a := Rmin 0 (Rmin m1 (Rmin m2 m3))). set (b := Rmax 0 (Rmax n1 (Rmax n2 n3))).
  assert (a <= 0 /\ a <= m1 /\ a <= m2 /\ a <= m3).
  { unfold a. pose proof (Rmin_l 0 (Rmin m1 (Rmin m2 m3))). pose proof (Rmin_r 0 (Rmin m1 (Rmin m2 m3))). pose proof (Rmin_l m1 (Rmin m2 m3)). pose proof (Rmin_r m1 (Rmin m2 m3)). pose proof (Rmin_l m2 m3). pose proof (Rmin_r m2 m3). lra. }
  assert (0 <= b /\ n1 <= b /\ n2 <= b /\ n3 <= b).
  { unfold b. pose proof (Rmax_l 0 (Rmax n1 (Rmax n2 n3))). pose proof (Rmax_r 0 (Rmax n1 (Rmax n2 n3))). pose proof (Rmax_l n1 (Rmax n2 n3)). pose proof (Rmax_r n1 (Rmax n2 n3)). pose proof (Rmax_l n2 n3). pose proof (Rmax_r n2 n3). lra. }
  pose proof (V0 a 0 ltac:(lra) ltac:(lra)) as V. pose proof (W0 0 b ltac:(lra) ltac:(lra)) as W.
  specialize (A1 a ltac:(lra)). specialize (A2 a ltac:(lra)). specialize (A3 a ltac:(lra)). specialize (B1 b ltac:(lra)). specialize (B2 b ltac:(lra)). specialize (B3 b ltac:(lra)).
  assert (S : forall u x, Rabs x <= t -> - (Rabs u * t) <= u * x <= Rabs u * t).
  { intros u x Hx. apply abs_between. rewrite Rabs_mult. apply Rmult_le_compat_l; [apply Rabs_pos | exact Hx]. }
  pose proof (S K (Q a) A2) as KA. pose proof (S K (Q b - q) B2) as KB. pose proof (S d0 (H a) A3) as DA. pose proof (S d (H b - m) B3) as DB.
  apply abs_between in A1, B1.
  assert (0 <= Rabs d * t /\ 0 <= Rabs d0 * t) by (split; apply Rmult_le_pos; lra). unfold M in Et. lra.
Qed.
(** The case without the third function. *)
Lemma split_le g h p q K : integral_split 0 g p -> integral_split 0 h q -> (forall k, k <> 0 -> g k <= K * h k) -> p <= K * q.
Proof.
  intros P Q L. pose proof (split_compare g h (fun _ => 0) (fun _ => 0) p q 0 K 0 0 P Q) as S.
  assert (Z : prim0 (fun _ => 0) (fun _ => 0) 0).
  { apply prim0_of; [intros x; apply derivable_pt_lim_const | |]; intros e He; exists 0; intros x _; rewrite ?Rminus_0_r, Rabs_R0; lra. }
  specialize (S Z). apply (Rle_trans _ (K * q + 0 * (0 - 0) + 0 * 0)); [|lra].
  apply S; intros k Hk; specialize (L k ltac:(lra)); lra.
Qed.
Lemma split_unique g p q : integral_split 0 g p -> integral_split 0 g q -> p = q.
Proof.
  intros P Q. pose proof (split_le g g p q 1 P Q ltac:(intros; lra)). pose proof (split_le g g q p 1 Q P ltac:(intros; lra)). lra.
Qed.
(** The density of noise around a count. *)
Lemma density_prim b n : 0 < b -> prim0 (fun k => laplace_law b (k - n)) (fun k => laplace_density b (k - n)) 1.
Proof.
  intros Hb. destruct (laplace_is_cdf b Hb) as (B & M & L & U). apply prim0_of.
  - intros x. replace (laplace_density b (x - n)) with (laplace_density b (x - n) * 1) by ring.
    apply (derivable_pt_lim_comp (fun k => k - n) (laplace_law b)).
    + replace 1 with (1 - 0) by ring. apply derivable_pt_lim_minus; [apply derivable_pt_lim_id | apply derivable_pt_lim_const].
    + unfold laplace_density. replace (exp (- Rabs (x - n) / b) / (2 * b)) with (/ (2 * b) * exp (- Rabs (x - n) / b)) by (field; lra). apply laplace_deriv, Hb.
  - intros e He. destruct (L e He) as [m Hm]. exists (m + n). intros x Hx. pose proof (B (x - n)). pose proof (M (x - n) m ltac:(lra)). apply Rabs_le. lra.
  - intros e He. destruct (U e He) as [m Hm]. exists (m + n). intros x Hx. pose proof (B (x - n)). pose proof (M m (x - n) ltac:(lra)). apply Rabs_le. lra.
Qed.
Lemma density_split b n : 0 < b -> integral_split 0 (fun k => laplace_density b (k - n)) 1.
Proof. intros Hb. eexists. apply (density_prim b n Hb). Qed.
