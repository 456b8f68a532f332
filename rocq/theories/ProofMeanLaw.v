(** The distribution of the noisy mean exists. *)
From Coquelicot Require Import Coquelicot.
From Verif Require Import Base XReal TypesMean SpecDP SpecMech SpecRun SpecMean ProofShape ProofRun ProofSvtDp ProofSplit ProofMeanDp ProofMeanPriv.
Local Open Scope R_scope.

Lemma lim_up (D : R -> Prop) (f : R -> R) B : (exists x, D x) -> (forall x y, D x -> D y -> x <= y -> f x <= f y) -> (forall x, D x -> f x <= B) ->
  exists S, (forall x, D x -> f x <= S) /\ forall e, 0 < e -> exists x0, D x0 /\ forall x, D x -> x0 <= x -> S - e < f x.
Proof.
  intros [x1 H1] M HB. destruct (completeness (fun y => exists x, D x /\ y = f x)) as (S & UB & LUB).
  - exists B. intros y (x & Hx & ->). apply HB, Hx.
  - exists (f x1), x1. split; [exact H1 | reflexivity].
  - exists S. split; [intros x Hx; apply UB; exists x; split; [exact Hx | reflexivity]|]. intros e He.
    apply Classical_Prop.NNPP. intros N. assert (S <= S - e); [|lra]. apply LUB. intros y (x & Hx & ->). apply Rnot_lt_le. intros K.
    apply N. exists x. split; [exact Hx|]. intros z Hz L. pose proof (M x z Hx Hz L). lra.
Qed.
Lemma lim_down (D : R -> Prop) (f : R -> R) B : (exists x, D x) -> (forall x y, D x -> D y -> x <= y -> f x <= f y) -> (forall x, D x -> B <= f x) ->
  exists S, (forall x, D x -> S <= f x) /\ forall e, 0 < e -> exists x0, D x0 /\ forall x, D x -> x <= x0 -> f x < S + e.
Proof.
  intros [x1 H1] M HB. destruct (lim_up (fun x => D (- x)) (fun x => - f (- x)) (- B)) as (S & S1 & S2).
  - exists (- x1). rewrite Ropp_involutive. exact H1.
  - intros x y Hx Hy L. pose proof (M (- y) (- x) Hy Hx ltac:(lra)). lra.
  - intros x Hx. pose proof (HB _ Hx). lra.
  - exists (- S). split.
    + intros x Hx. specialize (S1 (- x)). rewrite Ropp_involutive in S1. specialize (S1 Hx). lra.
    + intros e He. destruct (S2 e He) as (x0 & D0 & K). exists (- x0). split; [exact D0|]. intros x Hx L. specialize (K (- x)). rewrite Ropp_involutive in K. specialize (K Hx ltac:(lra)). lra.
Qed.

Section Exists.
  Context (g f : R -> R) (p : R) (Fd : R -> R).
  Hypotheses (DF : forall x, derivable_pt_lim Fd x (f x)) (BF : forall x, 0 <= Fd x <= p).
  Hypotheses (Cg : forall x, x <> 0 -> continuity_pt g x) (Bg : forall x, 0 <= g x <= f x).

  Definition side (x0 x : R) : R := RInt g x0 x.
  Definition same (x0 x : R) : Prop := 0 < x0 * x.
  Lemma same_sign x0 x : same x0 x -> x <> 0.
  Proof. unfold same. intros H ->. lra. Qed.
  Lemma between_same x0 x z : same x0 x -> Rmin x0 x <= z <= Rmax x0 x -> z <> 0.
  Proof.
    unfold same. intros S [A B] ->. destruct (Rlt_dec 0 x0) as [P|P].
    - assert (0 < x) by nra. assert (0 < Rmin x0 x) by (apply Rmin_glb_lt; assumption). lra.
    - assert (x0 < 0) by (destruct (Req_dec x0 0) as [->|N]; lra). assert (x < 0) by nra. assert (Rmax x0 x < 0) by (apply Rmax_lub_lt; assumption). lra.
  Qed.
  Lemma side_integrable x0 x : same x0 x -> ex_RInt g x0 x.
  Proof. intros S. apply (ex_RInt_continuous g). intros z Hz. apply continuity_pt_filterlim, Cg, (between_same x0 x z S Hz). Qed.
  Lemma side_deriv x0 x : same x0 x -> derivable_pt_lim (side x0) x (g x).
  Proof.
    intros S. apply is_derive_Reals. apply (is_derive_RInt g (fun y => RInt g x0 y) x0 x).
    2:{ apply continuity_pt_filterlim, Cg, (same_sign x0 x S). }
    assert (N : 0 < Rabs x) by (apply Rabs_pos_lt, (same_sign x0 x S)). exists (mkposreal _ N). intros y Hy.
    apply (RInt_correct g x0 y). apply side_integrable. cbv in Hy. revert S. unfold same.
    change (Rabs (y - x) < Rabs x) in Hy. intros S. unfold Rabs in Hy. destruct (Rcase_abs (y - x)), (Rcase_abs x); nra.
  Qed.
  Lemma side_mono x0 x y : same x0 x -> same x0 y -> x <= y -> side x0 x <= side x0 y <= side x0 x + (Fd y - Fd x).
  Proof.
    intros Sx Sy L. assert (B : forall z, x <= z <= y -> same x0 z) by (unfold same in *; intros z Hz; destruct (Rlt_dec 0 x0); nra).
    assert (C : forall z, x <= z <= y -> continuity_pt (side x0) z) by (intros z Hz; apply derivable_continuous_pt; exists (g z); apply side_deriv, B, Hz).
    split.
    - apply (incr_open (side x0) g x y L); [intros z Hz; apply side_deriv, B; lra | exact C | intros z _; apply Bg].
    - enough (Fd x - side x0 x <= Fd y - side x0 y) by lra.
      apply (incr_open (fun z => Fd z - side x0 z) (fun z => f z - g z) x y L).
      + intros z Hz. apply derivable_pt_lim_minus; [apply DF | apply side_deriv, B; lra].
      + intros z Hz. apply (continuity_pt_minus Fd (side x0)); [apply derivable_continuous_pt; exists (f z); apply DF | apply C, Hz].
      + intros z _. pose proof (Bg z). lra.
  Qed.
  Lemma side_bounds x0 x : same x0 x -> same x0 x0 -> - p <= side x0 x <= p.
  Proof.
    intros S S0. assert (Z : side x0 x0 = 0) by (unfold side; rewrite RInt_point; reflexivity). pose proof (BF x). pose proof (BF x0).
    destruct (Rle_dec x0 x) as [L|L]; [pose proof (side_mono x0 x0 x S0 S L) | pose proof (side_mono x0 x x0 S S0 ltac:(lra))]; lra.
  Qed.

  Lemma split_exists : exists q, integral_split 0 g q.
  Proof.
    set (N := side (-1)). set (P := side 1).
    assert (SN : forall x, x < 0 -> same (-1) x) by (unfold same; intros; lra). assert (SP : forall x, 0 < x -> same 1 x) by (unfold same; intros; lra).
    destruct (lim_down (fun x => x < 0) N (- p)) as (a & A1 & A2).
    { exists (-1). lra. } { intros x y Hx Hy L. apply (side_mono (-1) x y (SN x Hx) (SN y Hy) L). } { intros x Hx. apply (side_bounds (-1) x (SN x Hx)), SN. lra. }
    destruct (lim_up (fun x => x < 0) N p) as (b & B1 & B2).
    { exists (-1). lra. } { intros x y Hx Hy L. apply (side_mono (-1) x y (SN x Hx) (SN y Hy) L). } { intros x Hx. apply (side_bounds (-1) x (SN x Hx)), SN. lra. }
    destruct (lim_down (fun x => 0 < x) P (- p)) as (c & C1 & C2).
    { exists 1. lra. } { intros x y Hx Hy L. apply (side_mono 1 x y (SP x Hx) (SP y Hy) L). } { intros x Hx. apply (side_bounds 1 x (SP x Hx)), SP. lra. }
    destruct (lim_up (fun x => 0 < x) P p) as (d & D1 & D2).
    { exists 1. lra. } { intros x y Hx Hy L. apply (side_mono 1 x y (SP x Hx) (SP y Hy) L). } { intros x Hx. apply (side_bounds 1 x (SP x Hx)), SP. lra. }
    set (G := fun x => if Rltb x 0 then N x - a else if Rltb 0 x then b - a + (P x - c) else b - a).
    assert (GN : forall x, x < 0 -> G x = N x - a) by (intros x Hx; unfold G; rewrite Rltb_true by exact Hx; reflexivity).
    assert (GP : forall x, 0 < x -> G x = b - a + (P x - c)) by (intros x Hx; unfold G; rewrite Rltb_false, Rltb_true by lra; reflexivity).
    assert (G0 : G 0 = b - a) by (unfold G; rewrite !Rltb_false by lra; reflexivity).
    assert (DG : forall x, x <> 0 -> derivable_pt_lim G x (g x)).
    { intros x Hx. assert (A : 0 < Rabs x) by (apply Rabs_pos_lt, Hx).
      assert (Sg : forall h, Rabs h < Rabs x -> (x < 0 -> x + h < 0) /\ (0 < x -> 0 < x + h)).
      { intros h. unfold Rabs. destruct (Rcase_abs h), (Rcase_abs x); lra. }
      intros e He. destruct (Rlt_dec x 0) as [X|X].
      - destruct (side_deriv (-1) x (SN x X) e He) as [dl Hd]. assert (M : 0 < Rmin dl (Rabs x)) by (apply Rmin_glb_lt; [apply cond_pos | exact A]).
        exists (mkposreal _ M). cbn. intros h Hh Hl. pose proof (Rmin_l dl (Rabs x)). pose proof (Rmin_r dl (Rabs x)).
        destruct (Sg h ltac:(lra)) as [S1 _]. rewrite (GN x X), (GN (x + h) (S1 X)). unfold N.
        replace (side (-1) (x + h) - a - (side (-1) x - a)) with (side (-1) (x + h) - side (-1) x) by ring. apply Hd; [exact Hh | lra].
      - destruct (side_deriv 1 x (SP x ltac:(lra)) e He) as [dl Hd]. assert (M : 0 < Rmin dl (Rabs x)) by (apply Rmin_glb_lt; [apply cond_pos | exact A]).
        exists (mkposreal _ M). cbn. intros h Hh Hl. pose proof (Rmin_l dl (Rabs x)). pose proof (Rmin_r dl (Rabs x)).
        destruct (Sg h ltac:(lra)) as [_ S1]. rewrite (GP x ltac:(lra)), (GP (x + h) (S1 ltac:(lra))). unfold P.
        replace (b - a + (side 1 (x + h) - c) - (b - a + (side 1 x - c))) with (side 1 (x + h) - side 1 x) by ring. apply Hd; [exact Hh | lra]. }
    exists (b - a + (d - c)), G. split; [|split; [exact DG|split]].
    - intros x. destruct (Req_dec x 0) as [->|X]; [|apply derivable_continuous_pt; exists (g x); apply DG, X].
      intros e He. destruct (B2 e He) as (x1 & X1 & K1). destruct (C2 e He) as (x2 & X2 & K2). exists (Rmin (- x1) x2). split; [apply Rmin_glb_lt; lra|].
      intros y ((_ & Ny) & Hy). unfold dist in *. cbn in *. unfold R_dist in *. rewrite Rminus_0_r in Hy. pose proof (Rmin_l (- x1) x2). pose proof (Rmin_r (- x1) x2). rewrite G0.
      destruct (Rlt_dec y 0) as [Y|Y].
      + rewrite (GN y Y). rewrite Rabs_left in Hy by exact Y. pose proof (K1 y Y ltac:(lra)). pose proof (B1 y Y). rewrite Rabs_left1; lra.
      + rewrite (GP y ltac:(lra)). rewrite Rabs_right in Hy by lra. pose proof (K2 y ltac:(lra) ltac:(lra)). pose proof (C1 y ltac:(lra)). rewrite Rabs_right; lra.
    - intros e He. destruct (A2 e He) as (x1 & X1 & K1). exists x1. intros x Hx. rewrite (GN x ltac:(lra)). pose proof (K1 x ltac:(lra) Hx). pose proof (A1 x ltac:(lra)). rewrite Rabs_right; lra.
    - intros e He. destruct (D2 e He) as (x1 & X1 & K1). exists x1. intros x Hx. rewrite (GP x ltac:(lra)). pose proof (K1 x ltac:(lra) Hx). pose proof (D1 x ltac:(lra)). rewrite Rabs_left1; lra.
  Qed.
End Exists.

(** A real that is determined uniquely can be picked. *)
Lemma real_choice (I : R -> R -> Prop) : (forall x, exists p, I x p) -> (forall x p q, I x p -> I x q -> p = q) -> exists P, forall x, I x (P x).
Proof.
  intros E U. assert (B : forall x, bound (fun y => exists p, I x p /\ y <= p)).
  { intros x. destruct (E x) as [p Hp]. exists p. intros y (q & Hq & L). rewrite (U x p q Hp Hq). exact L. }
  assert (N : forall x, exists y, (fun y => exists p, I x p /\ y <= p) y) by (intros x; destruct (E x) as [p Hp]; exists p, p; split; [exact Hp | lra]).
  exists (fun x => proj1_sig (completeness _ (B x) (N x))). intros x. destruct (completeness _ (B x) (N x)) as (m & UB & LUB). cbn.
  destruct (E x) as [p Hp]. replace m with p; [exact Hp|]. apply Rle_antisym.
  - apply UB. exists p. split; [exact Hp | lra].
  - apply LUB. intros y (q & Hq & L). rewrite (U x p q Hp Hq). exact L.
Qed.

Lemma noise_continuous delta F x : noise_of delta F -> continuity_pt F x.
Proof.
  unfold noise_of. destruct (Reqb_spec delta 0) as [E|N]; intros H.
  - intros e He. destruct (laplace_continuous 1 x ltac:(lra) e He) as (a & A & K). exists a. split; [exact A|]. intros y Hy. rewrite !H. apply K, Hy.
  - destruct H as (_ & k & _ & D). apply derivable_continuous_pt. exists (k * exp (- (x * x) / 2)). apply D.
Qed.
Lemma max_continuous a f x : continuity_pt f x -> continuity_pt (fun k => Rmax a (f k)) x.
Proof.
  intros C e He. destruct (C e He) as (d & D & K). exists d. split; [exact D|]. intros y Hy. specialize (K y Hy). unfold dist in *. cbn in *. unfold R_dist in *.
  unfold Rmax. destruct (Rle_dec a (f y)), (Rle_dec a (f x)); try exact K; unfold Rabs in *; destruct (Rcase_abs (f y - f x)); try (rewrite Rminus_eq_0; destruct (Rcase_abs 0); lra).
  - destruct (Rcase_abs (f y - a)); lra.
  - destruct (Rcase_abs (f y - a)); lra.
  - destruct (Rcase_abs (a - f x)); lra.
  - destruct (Rcase_abs (a - f x)); lra.
Qed.
Lemma div_count_continuous s (flag : bool) n x : x <> 0 -> continuity_pt (fun k => s / (if flag then k else n)) x.
Proof.
  intros X. destruct flag.
  - apply (continuity_pt_mult (fun _ => s) (fun k => / k)); [apply continuity_pt_const; intros u v; reflexivity|]. apply (continuity_pt_inv (fun k => k)); [apply derivable_continuous_pt, derivable_pt_id | exact X].
  - apply continuity_pt_const. intros u v. reflexivity.
Qed.

Lemma mean_law_exists F c data : noise_of (mean_delta c) F -> 0 < mean_epsilon c -> exists P, mean_law F c data P.
Proof.
  intros HF He. apply (real_choice (fun x p => integral_split 0 (fun k => laplace_density (1 / epsilon_share c) (k - INR (List.length data))
    * F ((x - mean_given c data k) / scale_given c data k)) p)); [|intros x p q; apply split_unique].
  intros x. pose proof (b_pos c He) as Hb. set (b := 1 / epsilon_share c) in *. destruct (laplace_is_cdf b Hb) as (B & _). set (n := INR (List.length data)).
  apply (split_exists _ (fun k => laplace_density b (k - n)) 1 (fun k => laplace_law b (k - n))).
  - intros k. replace (laplace_density b (k - n)) with (laplace_density b (k - n) * 1) by ring.
    apply (derivable_pt_lim_comp (fun k => k - n) (laplace_law b)).
    + replace 1 with (1 - 0) by ring. apply derivable_pt_lim_minus; [apply derivable_pt_lim_id | apply derivable_pt_lim_const].
    + unfold laplace_density. replace (exp (- Rabs (k - n) / b) / (2 * b)) with (/ (2 * b) * exp (- Rabs (k - n) / b)) by (field; lra). apply laplace_deriv, Hb.
  - intros k. apply B.
  - intros k Hk. apply (continuity_pt_mult (fun k => laplace_density b (k - n)) (fun k => F ((x - mean_given c data k) / scale_given c data k))).
    + apply shifted_continuous. intros y. apply density_continuous, Hb.
    + apply (continuity_pt_comp (fun k => (x - mean_given c data k) / scale_given c data k) F); [|apply (noise_continuous _ F _ HF)].
      apply (continuity_pt_div (fun k => x - mean_given c data k) (fun k => scale_given c data k)).
      * apply (continuity_pt_minus (fun _ => x) (mean_given c data)); [apply continuity_pt_const; intros u v; reflexivity|]. apply div_count_continuous, Hk.
      * apply max_continuous, div_count_continuous, Hk.
      * pose proof (scale_pos c data k). lra.
  - intros k. pose proof (density_pos b (k - n) Hb). destruct (noise_cdf _ _ HF) as (BF & _).
    pose proof (BF ((x - mean_given c data k) / scale_given c data k)). split; [apply Rmult_le_pos; lra|]. nra.
Qed.
