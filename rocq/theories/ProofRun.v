(** Integrals over the line, and the probabilities of the rows of reports. *)
From Coquelicot Require Import Coquelicot.
From Verif Require Import Base TypesSvt SpecDP SpecMech SpecSvt SpecRun ProofShape.
Local Open Scope R_scope.

(** An integral is monotone, and does not change under a shift. *)
Lemma integral_le g h p q K d : integral_is g p -> integral_is h q -> (forall x, g x <= K * h (x + d)) -> p <= K * q.
Proof.
  intros (G & DG & LG & UG) (H & DH & LH & UH) L.
  apply Rnot_lt_le. intros N. set (e := (p - K * q) / (3 + 3 * Rabs K)).
  pose proof (Rabs_pos K) as AK. assert (He : 0 < e) by (unfold e; apply Rdiv_lt_0_compat; lra).
  destruct (LG e He) as [m1 M1]. destruct (UG e He) as [m2 M2]. destruct (LH e He) as [m3 M3]. destruct (UH e He) as [m4 M4].
  set (a := Rmin m1 (m3 - d)). set (b := Rmax a (Rmax m2 (m4 - d))).
  assert (Hab : a <= b) by apply Rmax_l.
  pose proof (Rmin_l m1 (m3 - d)) as A1. pose proof (Rmin_r m1 (m3 - d)) as A2.
  pose proof (Rmax_r a (Rmax m2 (m4 - d))) as B0. pose proof (Rmax_l m2 (m4 - d)) as B1. pose proof (Rmax_r m2 (m4 - d)) as B2.
  fold a in A1, A2. fold b in B0.
  assert (I : K * H (a + d) - G a <= K * H (b + d) - G b).
  { apply (deriv_nonneg (fun x => K * H (x + d) - G x) (fun x => K * h (x + d) - g x)); [|exact Hab|intros z _; specialize (L z); lra].
    intros z. apply derivable_pt_lim_minus; [|apply DG].
    apply (derivable_pt_lim_scal (fun x => H (x + d)) K z (h (z + d))).
    replace (h (z + d)) with (h (z + d) * 1) by ring.
    apply (derivable_pt_lim_comp (fun x => x + d) H z 1 (h (z + d))); [|apply DH].
    replace 1 with (1 + 0) by ring. apply derivable_pt_lim_plus; [apply derivable_pt_lim_id | apply derivable_pt_lim_const]. }
  pose proof (M1 a ltac:(lra)) as R1. pose proof (M2 b ltac:(lra)) as R2. pose proof (M3 (a + d) ltac:(lra)) as R3. pose proof (M4 (b + d) ltac:(lra)) as R4.
  assert (R5 : Rabs (K * (H (b + d) - q)) <= Rabs K * e) by (rewrite Rabs_mult; apply Rmult_le_compat_l; assumption).
  assert (R6 : Rabs (K * H (a + d)) <= Rabs K * e) by (rewrite Rabs_mult; apply Rmult_le_compat_l; assumption).
  apply Rabs_le_between in R1, R2, R5, R6.
  assert (E : e * (3 + 3 * Rabs K) = p - K * q) by (unfold e; field; lra).
  assert (0 <= Rabs K * e) by (apply Rmult_le_pos; lra). nra.
Qed.
Lemma integral_unique g p q : integral_is g p -> integral_is g q -> p = q.
Proof.
  intros P Q. pose proof (integral_le g g p q 1 0 P Q ltac:(intros x; rewrite Rplus_0_r; lra)) as A.
  pose proof (integral_le g g q p 1 0 Q P ltac:(intros x; rewrite Rplus_0_r; lra)) as B. lra.
Qed.
Lemma integral_ext g h p : (forall x, g x = h x) -> integral_is g p -> integral_is h p.
Proof. intros E (G & D & L & U). exists G. split; [|auto]. intros x. rewrite <- E. apply D. Qed.
Lemma integral_zero : integral_is (fun _ => 0) 0.
Proof.
  exists (fun _ => 0). split; [intros x; apply derivable_pt_lim_const|].
  split; intros e He; exists 0; intros x _; rewrite ?Rminus_0_r, Rabs_R0; lra.
Qed.
Lemma integral_plus g h p q : integral_is g p -> integral_is h q -> integral_is (fun x => g x + h x) (p + q).
Proof.
  intros (G & DG & LG & UG) (H & DH & LH & UH). exists (fun x => G x + H x). split.
  { intros x. apply derivable_pt_lim_plus; [apply DG | apply DH]. }
  split; intros e He.
  - destruct (LG (e/2)) as [m1 M1]; [lra|]. destruct (LH (e/2)) as [m2 M2]; [lra|]. exists (Rmin m1 m2). intros x Hx.
    pose proof (Rmin_l m1 m2). pose proof (Rmin_r m1 m2). pose proof (M1 x ltac:(lra)). pose proof (M2 x ltac:(lra)).
    eapply Rle_trans; [apply Rabs_triang|lra].
  - destruct (UG (e/2)) as [m1 M1]; [lra|]. destruct (UH (e/2)) as [m2 M2]; [lra|]. exists (Rmax m1 m2). intros x Hx.
    pose proof (Rmax_l m1 m2). pose proof (Rmax_r m1 m2). pose proof (M1 x ltac:(lra)). pose proof (M2 x ltac:(lra)).
    replace (G x + H x - (p + q)) with ((G x - p) + (H x - q)) by ring. eapply Rle_trans; [apply Rabs_triang|lra].
Qed.
Lemma integral_rsum {A} (g : A -> R -> R) (p : A -> R) l : (forall a, In a l -> integral_is (g a) (p a)) ->
  integral_is (fun x => rsum (fun a => g a x) l) (rsum p l).
Proof.
  induction l as [|a l IH]; intros H; cbn [rsum]; [exact integral_zero|].
  apply integral_plus; [apply H; left; reflexivity | apply IH; intros b Hb; apply H; right; exact Hb].
Qed.
Lemma integral_nonneg g p : integral_is g p -> (forall x, 0 <= g x) -> 0 <= p.
Proof.
  intros P H. pose proof (integral_le (fun _ => 0) g 0 p 1 0 integral_zero P ltac:(intros x; rewrite Rmult_1_l; apply H)). lra.
Qed.

(** A continuous function between 0 and an integrable one is integrable. *)
Lemma integral_exists g f p : integral_is f p -> (forall x, continuity_pt g x) -> (forall x, 0 <= g x <= f x) -> exists q, integral_is g q.
Proof.
  intros (F & DF & LF & UF) C B.
  set (G0 := fun x => RInt g 0 x).
  assert (CC : forall x, continuous g x) by (intros x; apply continuity_pt_filterlim, C).
  assert (D0 : forall x, derivable_pt_lim G0 x (g x)).
  { intros x. apply is_derive_Reals. unfold G0. apply (is_derive_RInt g (fun y => RInt g 0 y) 0 x); [|apply CC].
    exists (mkposreal 1 Rlt_0_1). intros y _. apply (RInt_correct g 0 y). apply (ex_RInt_continuous g). intros z _. apply CC. }
  assert (M : forall x y, x <= y -> 0 <= G0 y - G0 x <= F y - F x).
  { intros x y H. split.
    - pose proof (deriv_nonneg G0 g x y D0 H ltac:(intros; apply B)). lra.
    - pose proof (deriv_nonneg (fun z => F z - G0 z) (fun z => f z - g z) x y ltac:(intros z; apply derivable_pt_lim_minus; [apply DF|apply D0]) H ltac:(intros z _; pose proof (B z); lra)). cbn beta in *. lra. }
  assert (FM : forall x y, x <= y -> F x <= F y) by (intros x y H; pose proof (M x y H); lra).
  assert (F0 : forall x, 0 <= F x).
  { intros x. apply Rnot_lt_le. intros N. destruct (LF (- F x / 2)) as [m Hm]; [lra|].
    pose proof (Hm (Rmin m x) (Rmin_l _ _)) as A. pose proof (FM (Rmin m x) x (Rmin_r _ _)).
    apply Rabs_le_between in A. lra. }
  assert (Fp : forall x, F x <= p).
  { intros x. apply Rnot_lt_le. intros N. destruct (UF ((F x - p) / 2)) as [m Hm]; [lra|].
    pose proof (Hm (Rmax m x) (Rmax_l _ _)) as A. pose proof (FM x (Rmax m x) (Rmax_r _ _)).
    apply Rabs_le_between in A. lra. }
  destruct (completeness (fun y => exists x, y = - G0 x)) as (a & UA & LA).
  { exists (- G0 0 + F 0). intros y [x ->]. destruct (Rle_dec x 0) as [H|H].
    - pose proof (M x 0 H). pose proof (F0 x). lra.
    - pose proof (M 0 x ltac:(lra)). pose proof (F0 0). lra. }
  { exists (- G0 0), 0. reflexivity. }
  destruct (completeness (fun y => exists x, y = G0 x)) as (b & UB & LB).
  { exists (G0 0 + (p - F 0)). intros y [x ->]. destruct (Rle_dec x 0) as [H|H].
    - pose proof (M x 0 H). pose proof (Fp 0). lra.
    - pose proof (M 0 x ltac:(lra)). pose proof (Fp x). lra. }
  { exists (G0 0), 0. reflexivity. }
  assert (Ua : forall x, - G0 x <= a) by (intros x; apply UA; exists x; reflexivity).
  assert (Ub : forall x, G0 x <= b) by (intros x; apply UB; exists x; reflexivity).
  exists (b + a), (fun x => G0 x + a). split.
  { intros x. replace (g x) with (g x + 0) by ring. apply derivable_pt_lim_plus; [apply D0 | apply derivable_pt_lim_const]. }
  split; intros e He.
  - destruct (Classical_Prop.classic (exists x, a - e < - G0 x)) as [[x Hx]|N].
    + exists x. intros y Hy. pose proof (M y x Hy). pose proof (Ua y). apply Rabs_le. lra.
    + exfalso. assert (a <= a - e); [|lra]. apply LA. intros y [x ->]. apply Rnot_lt_le. intros K. apply N. exists x. exact K.
  - destruct (Classical_Prop.classic (exists x, b - e < G0 x)) as [[x Hx]|N].
    + exists x. intros y Hy. pose proof (M x y Hy). pose proof (Ub y). apply Rabs_le. lra.
    + exfalso. assert (b <= b - e); [|lra]. apply LB. intros y [x ->]. apply Rnot_lt_le. intros K. apply N. exists x. exact K.
Qed.
