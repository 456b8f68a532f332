(** Samples without replacement: the two data sets as mixtures over pairs of samples that differ
    in one record. *)
From Coq Require Import Permutation FunctionalExtensionality.
From Verif Require Import Base SpecDP SpecWor ProofWorMix.
Local Open Scope R_scope.

Lemma samples_length {X} (l : list X) : forall m s, In s (samples m l) -> length s = m.
Proof.
  induction l as [|x l IH]; intros m s; cbn [samples].
  - destruct m; [intros [<-|[]]; reflexivity | intros []].
  - rewrite in_app_iff. intros [H|H]; [|apply IH, H]. destruct m as [|m]; [contradiction|]. apply in_map_iff in H. destruct H as (t & <- & H). cbn. f_equal. apply IH, H.
Qed.
Lemma samples_0 {X} (l : list X) : samples 0 l = [[]].
Proof. induction l as [|x l IH]; [reflexivity|]. cbn [samples app]. exact IH. Qed.
Lemma samples_more {X} (l : list X) : forall m, (length l < m)%nat -> samples m l = [].
Proof.
  induction l as [|x l IH]; intros m H; cbn [samples length] in *; [destruct m; [lia | reflexivity]|]. destruct m as [|m]; [lia|]. rewrite !IH by lia. reflexivity.
Qed.
Lemma samples_all {X} (l : list X) : samples (length l) l = [l].
Proof. induction l as [|x l IH]; [reflexivity|]. cbn [samples length]. rewrite IH, samples_more by lia. reflexivity. Qed.
Lemma samples_some {X} (l : list X) : forall m, (m <= length l)%nat -> samples m l <> [].
Proof.
  induction l as [|x l IH]; intros m H; cbn [samples length] in *; [destruct m; [discriminate | lia]|]. destruct m as [|m]; [cbn; apply IH; lia|].
  intros E. apply app_eq_nil in E. destruct E as [E _]. apply map_eq_nil in E. apply (IH m); [lia | exact E].
Qed.
(** The order of the records does not matter. *)
Definition orderless {X} (F : list X -> R) : Prop := forall s s', Permutation s s' -> F s = F s'.
Lemma samples_sum_cons {X} (F : list X -> R) m x l : rsum F (samples (S m) (x :: l)) = rsum (fun v => F (x :: v)) (samples m l) + rsum F (samples (S m) l).
Proof. cbn [samples]. rewrite rsum_app, rsum_map. reflexivity. Qed.
Lemma samples_perm {X} (l l' : list X) : Permutation l l' -> forall m F, orderless F -> rsum F (samples m l) = rsum F (samples m l').
Proof.
  intros P. induction P as [|x l l' P IH|x y l|l1 l2 l3 P1 IH1 P2 IH2]; intros m F HF.
  - reflexivity.
  - destruct m as [|m]; [rewrite !samples_0; reflexivity|]. rewrite !samples_sum_cons, (IH (S m) F HF). f_equal. apply IH. intros s s' Ps. apply HF. constructor. exact Ps.
  - destruct m as [|m]; [rewrite !samples_0; reflexivity|]. destruct m as [|m].
    + rewrite !samples_sum_cons, !samples_0. lra.
    + rewrite !samples_sum_cons. rewrite (rsum_ext (fun v => F (y :: x :: v)) (fun v => F (x :: y :: v))); [lra|]. intros v _. apply HF. constructor.
  - rewrite IH1, IH2; auto.
Qed.
Lemma samples_count {X} (l l' : list X) m : Permutation l l' -> INR (length (samples m l)) = INR (length (samples m l')).
Proof.
  intros P. pose proof (samples_perm l l' P m (fun _ => 1) ltac:(intros ? ? _; reflexivity)) as E. rewrite !rsum_const in E. lra.
Qed.

(** Pairs of a sample of [m] records and the same without one of them. *)
Fixpoint pairs {X : Type} (m : nat) (l : list X) : list (list X * list X) :=
  match l with
  | [] => []
  | x :: l => match m with
              | O => []
              | S m' => map (fun vs => (x :: fst vs, x :: snd vs)) (pairs m' l) ++ map (fun v => (v, x :: v)) (samples m' l)
              end ++ pairs m l
  end.
Lemma pairs_0 {X} (l : list X) : pairs 0 l = [].
Proof. induction l as [|x l IH]; [reflexivity | exact IH]. Qed.
Lemma pairs_in {X} (l : list X) : forall m v s, In (v, s) (pairs m l) -> length s = m /\ exists j, Permutation s (j :: v).
Proof.
  induction l as [|x l IH]; intros m v s; cbn [pairs]; [intros []|]. rewrite in_app_iff. intros [H|H]; [|apply IH, H].
  destruct m as [|m]; [contradiction|]. rewrite in_app_iff, !in_map_iff in H. destruct H as [([v0 s0] & E & H)|(v0 & E & H)].
  - cbn in E. injection E as <- <-. destruct (IH m v0 s0 H) as (L & j & P). split; [cbn; congruence|]. exists j. etransitivity; [constructor; exact P | constructor].
  - injection E as <- <-. split; [cbn; f_equal; apply (samples_length l), H|]. exists x. reflexivity.
Qed.
Lemma pairs_large {X} (F : list X -> R) l : forall m, rsum (fun vs => F (snd vs)) (pairs m l) = INR m * rsum F (samples m l).
Proof.
  revert F. induction l as [|x l IH]; intros F m; [destruct m; cbn [pairs samples rsum length INR fold_right map]; ring|]. destruct m as [|m]; [rewrite pairs_0; cbn; ring|].
  rewrite samples_sum_cons. cbn [pairs]. rewrite !rsum_app, !rsum_map, IH. cbn [snd]. rewrite (IH (fun s => F (x :: s)) m), S_INR. ring.
Qed.
Lemma pairs_small {X} (G : list X -> R) l : forall m, rsum (fun vs => G (fst vs)) (pairs (S m) l) = (INR (length l) - INR m) * rsum G (samples m l).
Proof.
  revert G. induction l as [|x l IH]; intros G m; [destruct m; cbn [pairs samples rsum length INR fold_right map]; ring|]. cbn [pairs]. rewrite !rsum_app, !rsum_map, IH. cbn [fst length]. change (fun a => G a) with G. rewrite S_INR.
  destruct m as [|m].
  - rewrite pairs_0, !samples_0. cbn. ring.
  - rewrite (IH (fun v => G (x :: v)) m), samples_sum_cons, S_INR. ring.
Qed.

Section Pair.
  Context {X O : Type} (run : list X -> O -> R) (m : nat) (x : X) (l : list X) (Hm : (m < length l)%nat).
  Notation is := (pairs (S m) l).
  Notation g := (INR (S m) / INR (S (length l))).
  Definition rate : R := g.
  Lemma counts : 0 < INR (length (samples m l)) /\ 0 < INR (length (samples (S m) l)) /\
    INR (length is) = INR (S m) * INR (length (samples (S m) l)) /\ INR (length is) = (INR (length l) - INR m) * INR (length (samples m l)).
  Proof.
    pose proof (pairs_large (fun _ : list X => 1) l (S m)) as A. pose proof (pairs_small (fun _ : list X => 1) l m) as B. rewrite !rsum_const in A, B. rewrite !Rmult_1_r in A, B.
    pose proof (samples_some l m ltac:(lia)) as N1. pose proof (samples_some l (S m) ltac:(lia)) as N2.
    split; [apply lt_0_INR; destruct (samples m l); [congruence | cbn; lia]|]. split; [apply lt_0_INR; destruct (samples (S m) l); [congruence | cbn; lia]|]. split; assumption.
  Qed.
  Lemma rate_range : 0 < g < 1.
  Proof.
    assert (0 < INR (S m)) by (apply lt_0_INR; lia). assert (INR (S m) < INR (S (length l))) by (apply lt_INR; lia). split.
    - apply Rdiv_lt_0_compat; lra.
    - apply (Rmult_lt_reg_r (INR (S (length l)))); [lra|]. unfold Rdiv. rewrite Rmult_assoc, Rinv_l by lra. lra.
  Qed.
  Lemma pairs_some : is <> [].
  Proof.
    destruct counts as (A & B & C & _). intros E. rewrite E in C. cbn [length] in C. change (INR 0) with 0 in C. assert (0 < INR (S m)) by (apply lt_0_INR; lia). nra.
  Qed.
  Lemma on_sample_mix o : on_sample (S m) run (x :: l) o =
    (1 - g) * avg is (fun vs => run (snd vs)) o + g * avg is (fun vs => run (x :: fst vs)) o.
  Proof.
    destruct counts as (A & B & C & D). unfold on_sample, avg. rewrite samples_sum_cons.
    assert (L : INR (length (samples (S m) (x :: l))) = INR (length (samples m l)) + INR (length (samples (S m) l))).
    { cbn [samples]. rewrite app_length, map_length, plus_INR. reflexivity. }
    rewrite L, (pairs_large (fun s => run s o) l (S m)), (pairs_small (fun v => run (x :: v) o) l m).
    set (a := INR (length (samples m l))) in *. set (b := INR (length (samples (S m) l))) in *. set (k := INR (length is)) in *. set (M := INR (S m)) in *.
    assert (M0 : 0 < M) by (unfold M; apply lt_0_INR; lia).
    assert (N0 : 0 < INR (length l) - INR m) by (pose proof (lt_INR _ _ Hm); lra).
    assert (EN : INR (S (length l)) = M + (INR (length l) - INR m)) by (unfold M; rewrite !S_INR; ring). set (N := INR (length l) - INR m) in *. rewrite EN.
    set (S1 := rsum (fun v => run (x :: v) o) (samples m l)). set (S2 := rsum (fun s => run s o) (samples (S m) l)).
    assert (Ek : k = M * b) by exact C. assert (Ea : a = M * b / N) by (apply (Rmult_eq_reg_l N); [|lra]; rewrite <- D, Ek; field; lra).
    rewrite Ek, Ea. assert (0 < M * b) by nra. field. repeat split; nra.
  Qed.
End Pair.
