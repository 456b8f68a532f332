(** Examples for the mean mechanism. *)
From Coq Require Import String.
From Verif Require Import Base Exn XReal TypesMean ModelMean SpecDP SpecMech SpecRenyi SpecRun SpecMean ProofConstructEx ProofMeanPriv ProofMeanLaw.
Local Open Scope R_scope.

Lemma mean_private_example : exists F P P' Q Q', let c := mkMean 1 0 true true 1 0 in let c' := mkMean 1 (1/100) false false 1 0 in
  mean_law (laplace_law 1) c [1; 0; 1/2] P /\ mean_law (laplace_law 1) c [1; 1; 1/2] P'
  /\ noise_of (1/100) F /\ mean_law F c' [1; 0; 1/2] Q /\ mean_law F c' [1; 1; 1/2] Q'
  /\ dp_both (observe P P' [0; 1]) (1/2) (0 + exp (- (3 * 1 / 2)) / 2) /\ dp_both (observe Q Q' [0; 1]) 1 (1/100).
Proof.
  set (c := mkMean 1 0 true true 1 0). set (c' := mkMean 1 (1/100) false false 1 0).
  destruct normal_exists as (F & _ & HF & _).
  assert (N : noise_of (mean_delta c) (laplace_law 1)) by (unfold noise_of; cbn; rewrite Reqb_true by reflexivity; reflexivity).
  assert (N' : noise_of (mean_delta c') F) by (unfold noise_of; cbn; rewrite Reqb_false by lra; exact HF).
  assert (R : one_replaced [1; 0; 1/2] [1; 1; 1/2]) by (exists [1], 0, 1, [1/2]; split; reflexivity).
  assert (C : StronglySorted Rlt [0; 1]) by (repeat constructor; lra).
  destruct (mean_law_exists (laplace_law 1) c [1; 0; 1/2] N ltac:(cbn; lra)) as (P & HP).
  destruct (mean_law_exists (laplace_law 1) c [1; 1; 1/2] N ltac:(cbn; lra)) as (P' & HP').
  destruct (mean_law_exists F c' [1; 0; 1/2] N' ltac:(cbn; lra)) as (Q & HQ).
  destruct (mean_law_exists F c' [1; 1; 1/2] N' ltac:(cbn; lra)) as (Q' & HQ').
  exists F, P, P', Q, Q'. cbn zeta. fold c c'. do 5 (split; [assumption|]). split.
  - destruct (mean_noised (laplace_law 1) c _ _ P P' [0; 1] N ltac:(cbn; lra) ltac:(cbn; lra) ltac:(cbn; lra) eq_refl eq_refl HP HP' C) as (_ & A & _).
    specialize (A R). cbn [mean_epsilon mean_delta c List.length INR] in A. replace (1 + 1 + 1) with 3 in A by ring. exact A.
  - exact (proj2 (mean_exact F c' _ _ Q Q' [0; 1] N' ltac:(cbn; lra) ltac:(cbn; lra) ltac:(cbn; lra) eq_refl eq_refl R HQ HQ' C)).
Qed.
Lemma mean_refuted_example : exists c P P', default_mean_config "private_mean" (1/10) 0 = Ok c /\ INR (S 9) * (1/10) <= 1
  /\ mean_law (laplace_law 1) c (0 :: repeat 0 9) P /\ mean_law (laplace_law 1) c (1 :: repeat 0 9) P'.
Proof.
  set (c := mkMean (1/10) 0 true true 1 0).
  assert (N : noise_of (mean_delta c) (laplace_law 1)) by (unfold noise_of; cbn; rewrite Reqb_true by reflexivity; reflexivity).
  destruct (mean_law_exists (laplace_law 1) c (0 :: repeat 0 9) N ltac:(cbn; lra)) as (P & HP).
  destruct (mean_law_exists (laplace_law 1) c (1 :: repeat 0 9) N ltac:(cbn; lra)) as (P' & HP').
  exists c, P, P'. split; [reflexivity|]. split; [cbn [INR]; lra | split; assumption].
Qed.
