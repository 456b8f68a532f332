(** Renyi moments of a number that is observed through cells: bounded by an antiderivative of
    the density f^a g^(1-a). *)
From Verif Require Import Base XReal SpecDP SpecRenyi SpecMech ProofDP ProofPeak ProofShape ProofRenyi.
Local Arguments Rltb : simpl never.
Local Arguments Rleb : simpl never.
Local Arguments Reqb : simpl never.

(** The tangent at ratio t of (p, q) -> p^a q^(1-a). *)
Definition tangent (a t p q : R) : R := a * Rpower t (a - 1) * p - (a - 1) * Rpower t a * q.

Lemma Rpower_pos x y : 0 < Rpower x y.
Proof. apply exp_pos. Qed.
Lemma Rpower_m1 t a : 0 < t -> Rpower t a = Rpower t (a - 1) * t.
Proof. intros H. replace a with (a - 1 + 1) at 1 by lra. rewrite Rpower_plus, Rpower_1 by assumption. reflexivity. Qed.

Lemma tangent_touch a p q : 0 < p -> 0 < q -> tangent a (p / q) p q = p * Rpower (p / q) (a - 1).
Proof.
  intros Hp Hq. unfold tangent. rewrite (Rpower_m1 (p / q) a) by (apply Rdiv_lt_0_compat; assumption). field. lra.
Qed.
(** p, q exponentials *)
Lemma tangent_below a t u v : 1 <= a -> 0 < t -> tangent a t (exp u) (exp v) <= exp (a * u + (1 - a) * v).
Proof.
  intros Ha Ht. set (y := exp (u - v) / t). assert (Hy : 0 < y) by (apply Rdiv_lt_0_compat; [apply exp_pos | assumption]).
  pose proof (bernoulli a y Ha Hy) as B.
  assert (E : exp (a * u + (1 - a) * v) = Rpower y a * Rpower t a * exp v).
  { unfold Rpower, y. rewrite ln_div, ln_exp, <- !exp_plus by (assumption || apply exp_pos). f_equal. ring. }
  assert (F : tangent a t (exp u) (exp v) = (1 + a * (y - 1)) * Rpower t a * exp v).
  { unfold tangent. rewrite (Rpower_m1 t a Ht). replace (exp u) with (y * t * exp v); [ring|].
    unfold y. rewrite exp_minus. field. split; [apply Rgt_not_eq, exp_pos | lra]. }
  rewrite E, F. apply Rmult_le_compat_r; [left; apply exp_pos|]. apply Rmult_le_compat_r; [left; apply Rpower_pos | exact B].
Qed.

(** One outcome. *)
Definition moment_term (a p q : R) : R := if Reqb p 0 then 0 else p * Rpower (p / q) (a - 1).
Lemma term_bound a p q m : 1 < a -> 0 <= p -> 0 <= q -> 0 <= m -> (forall t, 0 < t -> tangent a t p q <= m) ->
  (q = 0 -> p = 0) /\ moment_term a p q <= m.
Proof.
  intros Ha Hp Hq Hm H.
  assert (Z : q = 0 -> p = 0).
  { intros ->. destruct Hp as [Hp|]; [exfalso | auto].
    set (t := Rpower ((m + 1) / (a * p)) (/ (a - 1))). assert (Ht : 0 < t) by apply Rpower_pos.
    assert (M : 0 < (m + 1) / (a * p)) by (apply Rdiv_lt_0_compat; nra).
    specialize (H t Ht). unfold tangent in H. unfold t in H at 1. rewrite Rpower_mult, Rinv_l, Rpower_1 in H by lra.
    replace (a * ((m + 1) / (a * p)) * p - (a - 1) * Rpower t a * 0) with (m + 1) in H by (field; nra). lra. }
  split; [exact Z|]. unfold moment_term. destruct (Reqb_spec p 0) as [->|N]; [assumption|].
  destruct Hq as [Hq|Hq]; [|exfalso; apply N, Z; auto].
  rewrite <- tangent_touch by lra. apply H. apply Rdiv_lt_0_compat; lra.
Qed.

Section Cells.
  Context (P Q M : R -> R) (K a : R).
  Hypotheses (HP : is_cdf P) (HQ : is_cdf Q) (Ha : 1 < a).
  Hypothesis MB : forall x, 0 <= M x <= K.
  Hypothesis MM : forall x y, x <= y -> M x <= M y.
  Hypothesis MT : forall t, 0 < t -> forall x y, x <= y -> tangent a t (P y - P x) (Q y - Q x) <= M y - M x.
  Definition m_end (x : xr) : R := match x with Fin a => M a | PInf => K | _ => 0 end.
  Lemma m_end_mono x y : xleb x y = true -> m_end x <= m_end y.
  Proof.
    destruct x as [x| | |], y as [y| | |]; cbn; intros L; try discriminate; try lra.
    - apply MM. revert L. destruct (Rleb_spec x y); [auto | discriminate].
    - apply MB.
    - apply MB.
    - destruct (MB 0). lra.
  Qed.
  Lemma small_C c1 c2 g : 0 <= c1 -> 0 <= c2 -> (forall e, 0 < e -> - (c1 * e + c2 * e) <= g) -> 0 <= g.
  Proof.
    intros H1 H2 H. destruct (Rle_lt_dec 0 g) as [|N]; [assumption|]. exfalso.
    specialize (H (- g / (2 * (c1 + c2 + 1)))). assert (X : 0 < - g / (2 * (c1 + c2 + 1))) by (apply Rdiv_lt_0_compat; lra).
    specialize (H X). set (e := - g / (2 * (c1 + c2 + 1))) in *.
    assert (2 * (c1 + c2 + 1) * e = - g) by (unfold e; field; lra). nra.
  Qed.
  Lemma is_cdf_low F e z : is_cdf F -> 0 < e -> exists x, x <= z /\ forall y, y <= x -> 0 <= F y <= e.
  Proof.
    intros (B & Mo & L & _) He. destruct (L e He) as [x Hx]. exists (Rmin x z). split; [apply Rmin_r|].
    intros y Hy. split; [apply B|]. pose proof (Rmin_l x z). pose proof (Mo y x ltac:(lra)). lra.
  Qed.
  Lemma is_cdf_high F e z : is_cdf F -> 0 < e -> exists x, z <= x /\ forall y, x <= y -> 1 - e <= F y <= 1.
  Proof.
    intros (B & Mo & _ & U) He. destruct (U e He) as [x Hx]. exists (Rmax x z). split; [apply Rmax_r|].
    intros y Hy. split; [|apply B]. pose proof (Rmax_l x z). pose proof (Mo x y ltac:(lra)). lra.
  Qed.
  Lemma end_tangent t x y : 0 < t -> xleb x y = true ->
    tangent a t (at_end P y - at_end P x) (at_end Q y - at_end Q x) <= m_end y - m_end x.
  Proof.
    intros Ht L.
    set (c1 := a * Rpower t (a - 1)). set (c2 := (a - 1) * Rpower t a).
    assert (C1 : 0 <= c1) by (unfold c1; pose proof (Rpower_pos t (a - 1)); nra).
    assert (C2 : 0 <= c2) by (unfold c2; pose proof (Rpower_pos t a); nra).
    assert (T : forall p q, tangent a t p q = c1 * p - c2 * q) by reflexivity.
    pose proof (MT t Ht) as H. rewrite T. setoid_rewrite T in H.
    (* finite right end: anything below *)
    assert (LOW : forall z, c1 * P z - c2 * Q z <= M z).
    { intros z. enough (0 <= M z - (c1 * P z - c2 * Q z)) by lra. apply (small_C c1 c2); try assumption. intros e He.
      destruct (is_cdf_low P e z HP He) as (x1 & X1 & Y1). destruct (is_cdf_low Q e x1 HQ He) as (x2 & X2 & Y2).
      specialize (H x2 z ltac:(lra)). specialize (Y1 x2 ltac:(lra)). specialize (Y2 x2 ltac:(lra)). specialize (MB x2).
      assert (c1 * P x2 <= c1 * e) by nra. assert (0 <= c2 * Q x2) by nra. assert (0 <= c2 * e) by nra. nra. }
    assert (HIGH : forall z, c1 * (1 - P z) - c2 * (1 - Q z) <= K - M z).
    { intros z. enough (0 <= K - M z - (c1 * (1 - P z) - c2 * (1 - Q z))) by lra. apply (small_C c1 c2); try assumption. intros e He.
      destruct (is_cdf_high P e z HP He) as (x1 & X1 & Y1). destruct (is_cdf_high Q e x1 HQ He) as (x2 & X2 & Y2).
      specialize (H z x2 ltac:(lra)). specialize (Y1 x2 ltac:(lra)). specialize (Y2 x2 ltac:(lra)). specialize (MB x2).
      assert (c1 * (1 - P x2) <= c1 * e) by nra. assert (0 <= c2 * (1 - Q x2)) by nra. assert (0 <= c2 * e) by nra. nra. }
    destruct x as [x| | |], y as [y| | |]; cbn in *; try discriminate; rewrite ?Rminus_0_r, ?Rminus_diag_eq by reflexivity; try lra.
    - apply H. revert L. destruct (Rleb_spec x y); [auto | discriminate].
    - apply HIGH.
    - apply LOW.
    - specialize (LOW 0). specialize (HIGH 0). lra.
  Qed.
  Lemma cells_moment cuts : StronglySorted Rlt cuts ->
    absolutely_continuous (observe P Q cuts) /\ renyi_moment (observe P Q cuts) a <= K.
  Proof.
    intros HS.
    assert (ONE : forall c, In c (cells cuts) -> (at_end Q (snd c) - at_end Q (fst c) = 0 -> at_end P (snd c) - at_end P (fst c) = 0) /\
       moment_term a (at_end P (snd c) - at_end P (fst c)) (at_end Q (snd c) - at_end Q (fst c)) <= m_end (snd c) - m_end (fst c)).
    { intros c Hc. pose proof (cells_ordered _ HS _ Hc) as L. pose proof (at_end_mono P HP _ _ L). pose proof (at_end_mono Q HQ _ _ L).
      pose proof (m_end_mono _ _ L). apply term_bound; try lra. intros t Ht. apply end_tangent; assumption. }
    split.
    - intros c Hc. apply (ONE c Hc).
    - change (rsum (fun c => moment_term a (at_end P (snd c) - at_end P (fst c)) (at_end Q (snd c) - at_end Q (fst c))) (cells cuts) <= K).
      eapply Rle_trans; [apply rsum_le; intros c Hc; apply (ONE c Hc)|]. rewrite (cells_telescope m_end). cbn. lra.
  Qed.
End Cells.
