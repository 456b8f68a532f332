(** Helpers used everywhere: boolean comparisons of reals and sums over lists. *)
From Coq Require Export List ZArith Lia Reals Lra Psatz Bool Arith.
Export ListNotations.
Open Scope R_scope.

(** ** Boolean comparisons on reals (Python's [<], [<=], [==] on floats). *)
Definition Rltb (x y : R) : bool := if Rlt_dec x y then true else false.
Definition Rleb (x y : R) : bool := if Rle_dec x y then true else false.
Definition Reqb (x y : R) : bool := if Req_EM_T x y then true else false.

Lemma Rltb_spec x y : reflect (x < y) (Rltb x y).
Proof. unfold Rltb; destruct (Rlt_dec x y); constructor; assumption. Qed.
Lemma Rleb_spec x y : reflect (x <= y) (Rleb x y).
Proof. unfold Rleb; destruct (Rle_dec x y); constructor; assumption. Qed.
Lemma Reqb_spec x y : reflect (x = y) (Reqb x y).
Proof. unfold Reqb; destruct (Req_EM_T x y); constructor; assumption. Qed.

Lemma Rltb_true x y : x < y -> Rltb x y = true.
Proof. destruct (Rltb_spec x y); auto; lra. Qed.
Lemma Rltb_false x y : y <= x -> Rltb x y = false.
Proof. destruct (Rltb_spec x y); auto; lra. Qed.
Lemma Rleb_true x y : x <= y -> Rleb x y = true.
Proof. destruct (Rleb_spec x y); auto; lra. Qed.
Lemma Rleb_false x y : y < x -> Rleb x y = false.
Proof. destruct (Rleb_spec x y); auto; lra. Qed.
Lemma Reqb_true x y : x = y -> Reqb x y = true.
Proof. destruct (Reqb_spec x y); auto; lra. Qed.
Lemma Reqb_false x y : x <> y -> Reqb x y = false.
Proof. destruct (Reqb_spec x y); auto; contradiction. Qed.
Lemma Reqb_refl x : Reqb x x = true.
Proof. apply Reqb_true; reflexivity. Qed.

Ltac rcase :=
  match goal with
  | |- context [Rltb ?x ?y] => destruct (Rltb_spec x y)
  | |- context [Rleb ?x ?y] => destruct (Rleb_spec x y)
  | |- context [Reqb ?x ?y] => destruct (Reqb_spec x y)
  end.

(** ** Sums over lists *)
Fixpoint rsum {A} (f : A -> R) (l : list A) : R :=
  match l with [] => 0 | a :: l => f a + rsum f l end.

Lemma rsum_app {A} (f : A -> R) l1 l2 : rsum f (l1 ++ l2) = rsum f l1 + rsum f l2.
Proof. induction l1 as [|a l1 IH]; simpl; [lra | rewrite IH; lra]. Qed.

Lemma rsum_ext {A} (f g : A -> R) l :
  (forall a, In a l -> f a = g a) -> rsum f l = rsum g l.
Proof.
  induction l as [|a l IH]; simpl; intros H; [reflexivity|].
  rewrite (H a), IH; auto.
Qed.

Lemma rsum_plus {A} (f g : A -> R) l :
  rsum (fun a => f a + g a) l = rsum f l + rsum g l.
Proof. induction l as [|a l IH]; simpl; [lra | rewrite IH; lra]. Qed.

Lemma rsum_minus {A} (f g : A -> R) l :
  rsum (fun a => f a - g a) l = rsum f l - rsum g l.
Proof. induction l as [|a l IH]; simpl; [lra | rewrite IH; lra]. Qed.

Lemma rsum_scal {A} (c : R) (f : A -> R) l :
  rsum (fun a => c * f a) l = c * rsum f l.
Proof. induction l as [|a l IH]; simpl; [lra | rewrite IH; lra]. Qed.

Lemma rsum_scal_r {A} (c : R) (f : A -> R) l :
  rsum (fun a => f a * c) l = rsum f l * c.
Proof. induction l as [|a l IH]; simpl; [lra | rewrite IH; lra]. Qed.

Lemma rsum_zero {A} (f : A -> R) l : (forall a, In a l -> f a = 0) -> rsum f l = 0.
Proof.
  induction l as [|a l IH]; simpl; intros H; [reflexivity|].
  rewrite (H a), IH; auto; lra.
Qed.

Lemma rsum_const {A} (c : R) (l : list A) : rsum (fun _ => c) l = INR (length l) * c.
Proof.
  induction l as [|a l IH]; [simpl; lra|].
  cbn [rsum length]. rewrite IH, S_INR; lra.
Qed.

Lemma rsum_le {A} (f g : A -> R) l :
  (forall a, In a l -> f a <= g a) -> rsum f l <= rsum g l.
Proof.
  induction l as [|a l IH]; simpl; intros H; [lra|].
  pose proof (H a (or_introl eq_refl)).
  assert (rsum f l <= rsum g l) by (apply IH; auto). lra.
Qed.

Lemma rsum_nonneg {A} (f : A -> R) l :
  (forall a, In a l -> 0 <= f a) -> 0 <= rsum f l.
Proof.
  intros H. rewrite <- (rsum_zero (fun _ : A => 0) l) by auto.
  apply rsum_le; auto.
Qed.

Lemma rsum_map {A B} (h : A -> B) (f : B -> R) l :
  rsum f (map h l) = rsum (fun a => f (h a)) l.
Proof. induction l as [|a l IH]; simpl; [reflexivity | rewrite IH; reflexivity]. Qed.

Lemma rsum_flat_map {A B} (h : A -> list B) (f : B -> R) l :
  rsum f (flat_map h l) = rsum (fun a => rsum f (h a)) l.
Proof.
  induction l as [|a l IH]; simpl; [reflexivity|].
  rewrite rsum_app, IH; reflexivity.
Qed.

Lemma rsum_swap {A B} (f : A -> B -> R) la lb :
  rsum (fun a => rsum (fun b => f a b) lb) la = rsum (fun b => rsum (fun a => f a b) la) lb.
Proof.
  induction la as [|a la IH]; simpl.
  - symmetry; apply rsum_zero; auto.
  - rewrite IH, <- rsum_plus; reflexivity.
Qed.

Lemma rsum_filter {A} (S : A -> bool) (f : A -> R) l :
  rsum f (filter S l) = rsum (fun a => if S a then f a else 0) l.
Proof.
  induction l as [|a l IH]; simpl; [reflexivity|].
  destruct (S a); simpl; rewrite IH; lra.
Qed.

Lemma rsum_filter_le {A} (S : A -> bool) (f : A -> R) l :
  (forall a, In a l -> 0 <= f a) -> rsum f (filter S l) <= rsum f l.
Proof.
  intros H. rewrite rsum_filter. apply rsum_le. intros a Ha.
  destruct (S a); [lra | auto].
Qed.

Lemma rsum_rev {A} (f : A -> R) l : rsum f (rev l) = rsum f l.
Proof.
  induction l as [|a l IH]; simpl; [reflexivity|].
  rewrite rsum_app, IH; simpl; lra.
Qed.

Lemma rsum_pos_ex {A} (f : A -> R) l :
  (forall a, In a l -> 0 <= f a) -> rsum f l <= 0 -> forall a, In a l -> f a = 0.
Proof.
  induction l as [|x l IH]; simpl; intros H0 Hs a Ha; [contradiction|].
  assert (0 <= rsum f l) by (apply rsum_nonneg; auto).
  pose proof (H0 x (or_introl eq_refl)).
  destruct Ha as [-> | Ha]; [lra|].
  apply IH; auto; lra.
Qed.

Lemma rsum_In_le {A} (f : A -> R) l a :
  (forall b, In b l -> 0 <= f b) -> In a l -> f a <= rsum f l.
Proof.
  induction l as [|x l IH]; simpl; intros H0 Ha; [contradiction|].
  assert (0 <= rsum f l) by (apply rsum_nonneg; auto).
  pose proof (H0 x (or_introl eq_refl)).
  destruct Ha as [-> | Ha]; [lra|].
  specialize (IH (fun b Hb => H0 b (or_intror Hb)) Ha). lra.
Qed.

From Coq Require Import Permutation.
Lemma rsum_perm {A} (f : A -> R) l1 l2 : Permutation l1 l2 -> rsum f l1 = rsum f l2.
Proof.
  induction 1 as [| x l1 l2 _ IH | x y l | l1 l2 l3 _ IH1 _ IH2]; simpl; lra.
Qed.

(** ** Positive part *)
Definition pos (x : R) : R := Rmax 0 x.

Lemma pos_nonneg x : 0 <= pos x.
Proof. apply Rmax_l. Qed.
Lemma pos_ge x : x <= pos x.
Proof. apply Rmax_r. Qed.
Lemma pos_eq x : 0 <= x -> pos x = x.
Proof. intros; apply Rmax_right; assumption. Qed.
Lemma pos_0 x : x <= 0 -> pos x = 0.
Proof. intros; apply Rmax_left; assumption. Qed.
Lemma pos_le x y : x <= y -> pos x <= pos y.
Proof. unfold pos; intros; apply Rle_max_compat_l; assumption. Qed.
Lemma pos_case x : (0 <= x /\ pos x = x) \/ (x < 0 /\ pos x = 0).
Proof.
  destruct (Rle_dec 0 x); [left | right]; split; try lra;
  [apply pos_eq | apply pos_0]; lra.
Qed.
Lemma pos_scal c x : 0 <= c -> pos (c * x) = c * pos x.
Proof.
  intros Hc. destruct (pos_case x) as [[H E]|[H E]]; rewrite E.
  - apply pos_eq; nra.
  - rewrite pos_0; [lra | nra].
Qed.
Lemma pos_plus x y : pos (x + y) <= pos x + pos y.
Proof.
  destruct (pos_case x) as [[H1 E1]|[H1 E1]], (pos_case y) as [[H2 E2]|[H2 E2]],
    (pos_case (x+y)) as [[H3 E3]|[H3 E3]]; lra.
Qed.
Lemma pos_le_bound x b : 0 <= b -> x <= b -> pos x <= b.
Proof. intros; apply Rmax_lub; assumption. Qed.

Lemma pos_rsum {A} (f : A -> R) l : pos (rsum f l) <= rsum (fun a => pos (f a)) l.
Proof.
  induction l as [|a l IH]; simpl; [rewrite pos_0; lra|].
  eapply Rle_trans; [apply pos_plus|]. lra.
Qed.

(** exponentials *)
Lemma exp_pos_nonneg x : 0 <= exp x.
Proof. left; apply exp_pos. Qed.
Lemma exp_le x y : x <= y -> exp x <= exp y.
Proof. intros [H| ->]; [left; apply exp_increasing; assumption | right; reflexivity]. Qed.
Lemma exp_le_inv2 x y : exp x <= exp y -> x <= y.
Proof.
  intros H. destruct (Rle_dec x y); auto.
  assert (exp y < exp x) by (apply exp_increasing; lra). lra.
Qed.
Lemma exp_minus x y : exp (x - y) = exp x / exp y.
Proof. unfold Rminus, Rdiv. rewrite exp_plus, exp_Ropp; reflexivity. Qed.
Lemma exp_nat_mul n x : exp (INR n * x) = exp x ^ n.
Proof.
  induction n as [|n IH]; [simpl; rewrite Rmult_0_l; apply exp_0|].
  rewrite S_INR, Rmult_plus_distr_r, exp_plus, IH, Rmult_1_l. simpl; lra.
Qed.
Lemma ln_le_mono x y : 0 < x -> x <= y -> ln x <= ln y.
Proof. intros Hx [H| ->]; [left; apply ln_increasing; assumption | right; reflexivity]. Qed.
