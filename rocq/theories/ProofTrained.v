(** Testers that train a model on one half of the samples and evaluate it on the other. *)
From Verif Require Import Base Exn XReal TypesAudit SpecDP SpecAudit ModelAudit TypesTesters ModelTesters SpecTesters ProofHoeffding ProofTailBounds ProofTailSums.

Lemma law_P_ok E : valid E -> distribution (law_P E).
Proof.
  intros (H & HP & _). split.
  - intros o Ho. apply in_map_iff in Ho. destruct Ho as (a & <- & Ha). cbn [snd]. apply H; exact Ha.
  - unfold law_P. rewrite rsum_map. exact HP.
Qed.
Lemma law_Q_ok E : valid E -> distribution (law_Q E).
Proof.
  intros (H & _ & HQ). split.
  - intros o Ho. apply in_map_iff in Ho. destruct Ho as (a & <- & Ha). cbn [snd]. apply H; exact Ha.
  - unfold law_Q. rewrite rsum_map. exact HQ.
Qed.
Lemma expect_P E f : expect (law_P E) f = rsum (fun a => prP E a * f a) (outs E).
Proof. unfold expect, law_P. rewrite rsum_map. reflexivity. Qed.
Lemma expect_Q E f : expect (law_Q E) f = rsum (fun a => prQ E a * f a) (outs E).
Proof. unfold expect, law_Q. rewrite rsum_map. reflexivity. Qed.

Lemma mean_nonneg {O} (om : list (O * R)) n f : distribution om -> (forall l, List.length l = n -> 0 <= f l) -> 0 <= mean om n f.
Proof. intros H Hf. rewrite <- (mean_const om H n 0). apply (mean_le om H). exact Hf. Qed.

Lemma mean_swap {O1 O2} (om1 : list (O1 * R)) (om2 : list (O2 * R)) n m : distribution om2 -> forall f,
  mean om1 n (fun l1 => mean om2 m (fun l2 => f l1 l2)) = mean om2 m (fun l2 => mean om1 n (fun l1 => f l1 l2)).
Proof.
  intros H2. induction n as [|n IH]; intros f; cbn [mean]; [reflexivity|].
  rewrite (mean_sum om2 H2 m (fun o l2 => snd o * mean om1 n (fun l => f (fst o :: l) l2)) om1).
  apply rsum_ext. intros o _. rewrite mean_scal. f_equal. apply (IH (fun l => f (fst o :: l))).
Qed.

Lemma split_app {A} (a b : list A) n : List.length a = (n / 2)%nat -> List.length b = (n - n / 2)%nat -> n <> 1%nat ->
  split_samples (a ++ b) = Ok (a, b).
Proof.
  intros Ha Hb Hn. unfold split_samples.
  assert (E : List.length (a ++ b) = n).
  { rewrite app_length, Ha, Hb. pose proof (Nat.div_le_upper_bound n 2 n ltac:(lia)). lia. }
  rewrite E. destruct (Nat.eqb_spec n 1) as [K|_]; [contradiction|].
  rewrite <- Ha, firstn_app, skipn_app, Nat.sub_diag, firstn_all, skipn_all. cbn [firstn skipn]. rewrite app_nil_r. reflexivity.
Qed.
Lemma split_one {A} (s : list A) : List.length s = 1%nat -> split_samples s = Err ValueError.
Proof. intros E. unfold split_samples. rewrite E. reflexivity. Qed.

Lemma mean_halves {O} (om : list (O * R)) n f :
  mean om n f = mean om (n / 2) (fun a => mean om (n - n / 2) (fun b => f (a ++ b))).
Proof.
  rewrite <- mean_app. f_equal. pose proof (Nat.div_le_upper_bound n 2 n ltac:(lia)). lia.
Qed.

Section Halves.
  Context {O1 O2 : Type} (om1 : list (O1 * R)) (om2 : list (O2 * R)).
  Hypothesis H1 : distribution om1.
  Hypothesis H2 : distribution om2.
  Lemma mean_four n1 n2 f :
    mean om1 n1 (fun s1 => mean om2 n2 (fun s2 => f s1 s2))
    = mean om1 (n1 / 2) (fun a1 => mean om2 (n2 / 2) (fun a2 => mean om1 (n1 - n1 / 2) (fun b1 => mean om2 (n2 - n2 / 2) (fun b2 => f (a1 ++ b1) (a2 ++ b2))))).
  Proof.
    rewrite (mean_halves om1 n1). apply mean_ext. intros a1 _ _.
    rewrite <- (mean_swap om1 om2 _ _ H2). apply mean_ext. intros b1 _ _. apply (mean_halves om2 n2).
  Qed.
End Halves.

Section Trained.
  Context {A1 A2 A M W : Type} (om1 : list (A1 * R)) (om2 : list (A2 * R)) (m1 : A1 -> A) (m2 : A2 -> A)
          (fit : list A -> list A -> W -> res (M * W)) (compute : M -> list A -> list A -> R -> res xr) (reject : xr -> bool).
  Hypothesis H1 : distribution om1.
  Hypothesis H2 : distribution om2.
  Variables (n1 n2 : nat) (failure : R).
  Local Notation est := (divergence_estimate fit compute).
  Local Notation test g := (fun b1 b2 => rejects reject (compute g (map m1 b1) (map m2 b2) failure)).
  Local Notation test' g := (fun b1 b2 => rejects reject (compute g (map m2 b2) (map m1 b1) failure)).
  Variables B B' : R.
  Hypothesis HB : forall g, mean om1 (n1 - n1 / 2) (fun b1 => mean om2 (n2 - n2 / 2) (fun b2 => indicator (test g b1 b2))) <= B.
  Hypothesis HB0 : 0 <= B.

  Lemma trained w :
    mean om1 n1 (fun s1 => mean om2 n2 (fun s2 => indicator (rejects (fun vw => reject (fst vw)) (est (map m1 s1) (map m2 s2) failure w)))) <= B.
  Proof.
    destruct (Nat.eq_dec n1 1) as [E1|N1]; [|destruct (Nat.eq_dec n2 1) as [E2|N2]].
    - rewrite <- (mean_const om1 H1 n1 B). apply (mean_le om1 H1). intros s1 L1. rewrite <- (mean_const om2 H2 n2 B).
      apply (mean_le om2 H2). intros s2 L2. unfold divergence_estimate. rewrite (split_one (map m1 s1)) by (rewrite map_length; lia).
      cbn [bind rejects indicator]. exact HB0.
    - rewrite <- (mean_const om1 H1 n1 B). apply (mean_le om1 H1). intros s1 L1. rewrite <- (mean_const om2 H2 n2 B).
      apply (mean_le om2 H2). intros s2 L2. unfold divergence_estimate. rewrite (split_one (map m2 s2)) by (rewrite map_length; lia).
      destruct (split_samples (map m1 s1)) as [[? ?]|]; cbn [bind rejects indicator]; exact HB0.
    - rewrite (mean_four om1 om2 H2). rewrite <- (mean_const om1 H1 (n1 / 2) B). apply (mean_le om1 H1). intros a1 La1.
      rewrite <- (mean_const om2 H2 (n2 / 2) B). apply (mean_le om2 H2). intros a2 La2.
      destruct (fit (map m1 a1) (map m2 a2) w) as [[g w']|e] eqn:Ef.
      + eapply Rle_trans; [|apply (HB g)]. apply (mean_le om1 H1). intros b1 Lb1. apply (mean_le om2 H2). intros b2 Lb2.
        unfold divergence_estimate. rewrite !map_app.
        rewrite (split_app (map m1 a1) (map m1 b1) n1), (split_app (map m2 a2) (map m2 b2) n2) by (rewrite ?map_length; assumption).
        cbn [bind]. rewrite Ef. cbn [bind]. destruct (compute g (map m1 b1) (map m2 b2) failure); cbn [bind rejects fst]; apply Rle_refl.
      + rewrite <- (mean_const om1 H1 (n1 - n1 / 2) B). apply (mean_le om1 H1). intros b1 Lb1.
        rewrite <- (mean_const om2 H2 (n2 - n2 / 2) B). apply (mean_le om2 H2). intros b2 Lb2.
        unfold divergence_estimate. rewrite !map_app.
        rewrite (split_app (map m1 a1) (map m1 b1) n1), (split_app (map m2 a2) (map m2 b2) n2) by (rewrite ?map_length; assumption).
        cbn [bind]. rewrite Ef. cbn [bind rejects indicator]. exact HB0.
  Qed.

  (** Both directions, with the state that the first left. *)
  Hypothesis HB' : forall g, mean om1 (n1 - n1 / 2) (fun b1 => mean om2 (n2 - n2 / 2) (fun b2 => indicator (test' g b1 b2))) <= B'.
  Hypothesis HB0' : 0 <= B'.
  Definition both (w : W) (s1 s2 : list A) : bool :=
    match est s1 s2 failure w with
    | Err _ => false
    | Ok (e12, w1) =>
        match est s2 s1 failure w1 with
        | Err _ => false
        | Ok (e21, _) => reject e12 || reject e21
        end
    end.
  Lemma trained_both w :
    mean om1 n1 (fun s1 => mean om2 n2 (fun s2 => indicator (both w (map m1 s1) (map m2 s2)))) <= B + B'.
  Proof.
    assert (HBB : 0 <= B + B') by lra.
    destruct (Nat.eq_dec n1 1) as [E1|N1]; [|destruct (Nat.eq_dec n2 1) as [E2|N2]].
    - rewrite <- (mean_const om1 H1 n1 (B + B')). apply (mean_le om1 H1). intros s1 L1. rewrite <- (mean_const om2 H2 n2 (B + B')).
      apply (mean_le om2 H2). intros s2 L2. unfold both, divergence_estimate. rewrite (split_one (map m1 s1)) by (rewrite map_length; lia).
      cbn [bind indicator]. exact HBB.
    - rewrite <- (mean_const om1 H1 n1 (B + B')). apply (mean_le om1 H1). intros s1 L1. rewrite <- (mean_const om2 H2 n2 (B + B')).
      apply (mean_le om2 H2). intros s2 L2. unfold both, divergence_estimate. rewrite (split_one (map m2 s2)) by (rewrite map_length; lia).
      destruct (split_samples (map m1 s1)) as [[? ?]|]; cbn [bind indicator]; exact HBB.
    - rewrite (mean_four om1 om2 H2). rewrite <- (mean_const om1 H1 (n1 / 2) (B + B')). apply (mean_le om1 H1). intros a1 La1.
      rewrite <- (mean_const om2 H2 (n2 / 2) (B + B')). apply (mean_le om2 H2). intros a2 La2.
      assert (Hzero : (forall b1 b2, List.length b1 = (n1 - n1 / 2)%nat -> List.length b2 = (n2 - n2 / 2)%nat ->
                 both w (map m1 (a1 ++ b1)) (map m2 (a2 ++ b2)) = false) ->
               mean om1 (n1 - n1 / 2) (fun b1 => mean om2 (n2 - n2 / 2) (fun b2 => indicator (both w (map m1 (a1 ++ b1)) (map m2 (a2 ++ b2))))) <= B + B').
      { intros Hz. rewrite <- (mean_const om1 H1 (n1 - n1 / 2) (B + B')). apply (mean_le om1 H1). intros b1 Lb1.
        rewrite <- (mean_const om2 H2 (n2 - n2 / 2) (B + B')). apply (mean_le om2 H2). intros b2 Lb2. rewrite Hz by assumption. exact HBB. }
      destruct (fit (map m1 a1) (map m2 a2) w) as [[g w']|e] eqn:Ef.
      + destruct (fit (map m2 a2) (map m1 a1) w') as [[g' w'']|e] eqn:Ef'.
        * apply Rle_trans with (mean om1 (n1 - n1 / 2) (fun b1 => mean om2 (n2 - n2 / 2) (fun b2 => indicator (test g b1 b2) + indicator (test' g' b1 b2)))).
          -- apply (mean_le om1 H1). intros b1 Lb1. apply (mean_le om2 H2). intros b2 Lb2.
             unfold both, divergence_estimate. rewrite !map_app.
             rewrite (split_app (map m1 a1) (map m1 b1) n1), (split_app (map m2 a2) (map m2 b2) n2) by (rewrite ?map_length; assumption).
             cbn [bind]. rewrite Ef. cbn [bind].
             destruct (compute g (map m1 b1) (map m2 b2) failure) as [e12|]; cbn [bind rejects fst].
             ++ rewrite Ef'. cbn [bind]. destruct (compute g' (map m2 b2) (map m1 b1) failure) as [e21|]; cbn [bind rejects fst].
                ** destruct (reject e12), (reject e21); cbn [orb indicator]; lra.
                ** destruct (reject e12); cbn [indicator]; lra.
             ++ destruct (rejects reject _); cbn [indicator]; lra.
          -- rewrite (mean_ext om1 _ _ (fun b1 => mean om2 (n2 - n2 / 2) (fun b2 => indicator (test g b1 b2)) + mean om2 (n2 - n2 / 2) (fun b2 => indicator (test' g' b1 b2)))) by (intros; apply mean_plus).
             rewrite mean_plus. specialize (HB g). specialize (HB' g'). lra.
        * apply Hzero. intros b1 b2 Lb1 Lb2. unfold both, divergence_estimate. rewrite !map_app.
          rewrite (split_app (map m1 a1) (map m1 b1) n1), (split_app (map m2 a2) (map m2 b2) n2) by (rewrite ?map_length; assumption).
          cbn [bind]. rewrite Ef. cbn [bind]. destruct (compute g (map m1 b1) (map m2 b2) failure); cbn [bind]; [|reflexivity].
          rewrite Ef'. reflexivity.
      + apply Hzero. intros b1 b2 Lb1 Lb2. unfold both, divergence_estimate. rewrite !map_app.
        rewrite (split_app (map m1 a1) (map m1 b1) n1), (split_app (map m2 a2) (map m2 b2) n2) by (rewrite ?map_length; assumption).
        cbn [bind]. rewrite Ef. reflexivity.
  Qed.
End Trained.
