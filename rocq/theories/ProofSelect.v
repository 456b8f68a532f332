(** Selecting the best of a random number of runs: the probabilities of the released outcome. *)
From Coq Require Import Permutation.
From Verif Require Import Base XReal SpecDP SpecSelect ProofDP.
Local Arguments Rltb : simpl never.
Local Arguments Rleb : simpl never.
Local Arguments Reqb : simpl never.

Section Select.
  Context {A : Type} (rank : A -> nat).
  (** Probability of a rank below that of [y]. *)
  Definition below (pr : A -> R) (l : list A) (y : A) : R := rsum (fun x => if (rank x <? rank y)%nat then pr x else 0) l.

  Lemma runs_all (os : list A) (pr : A -> R) g k :
    rsum (run_prob pr) (filter (forallb g) (run_lists os k)) = rsum (fun x => if g x then pr x else 0) os ^ k.
  Proof.
    rewrite rsum_filter. induction k as [|k IH]; [cbn; lra|]. cbn [run_lists pow]. rewrite rsum_flat_map.
    rewrite <- rsum_scal_r. apply rsum_ext. intros o _. rewrite rsum_map. cbn [forallb run_prob fold_right].
    rewrite <- IH. destruct (g o); cbn [andb].
    - rewrite <- rsum_scal. apply rsum_ext. intros l _. fold (run_prob pr l). destruct (forallb g l); lra.
    - rewrite Rmult_0_l. apply rsum_zero. auto.
  Qed.
  Lemma best_split y runs : forallb (fun o => (rank o <=? rank y)%nat) runs =
    (is_best rank y runs || forallb (fun o => (rank o <? rank y)%nat) runs)%bool /\
    (is_best rank y runs && forallb (fun o => (rank o <? rank y)%nat) runs)%bool = false.
  Proof.
    unfold is_best. induction runs as [|o runs [I1 I2]]; [split; reflexivity|]. cbn [existsb forallb].
    destruct (Nat.eqb_spec (rank o) (rank y)) as [e|n]; cbn [orb].
    - rewrite e, Nat.leb_refl, Nat.ltb_irrefl. cbn [andb]. rewrite Bool.orb_false_r, Bool.andb_false_r. split; reflexivity.
    - replace (rank o <=? rank y)%nat with (rank o <? rank y)%nat
        by (destruct (Nat.ltb_spec (rank o) (rank y)), (Nat.leb_spec (rank o) (rank y)); lia).
      destruct (rank o <? rank y)%nat; cbn [andb]; [split; assumption|]. rewrite !Bool.andb_false_r. split; reflexivity.
  Qed.
  Lemma best_none os pr k : best_prob os rank pr k None = 0 ^ k.
  Proof.
    unfold best_prob. destruct k as [|k]; [cbn; lra|]. rewrite rsum_filter. cbn [run_lists pow]. rewrite Rmult_0_l. apply rsum_zero.
    intros l Hl. apply in_flat_map in Hl. destruct Hl as (o & _ & Hl). apply in_map_iff in Hl. destruct Hl as (l' & <- & _). reflexivity.
  Qed.
  Lemma at_rank (os : list A) (pr : A -> R) y : NoDup (map rank os) -> In y os ->
    rsum (fun x => if (rank x <=? rank y)%nat then pr x else 0) os = below pr os y + pr y.
  Proof.
    unfold below. induction os as [|x os IH]; intros N I; [contradiction|]. cbn [map] in N. inversion_clear N as [|? ? N1 N2]. cbn [rsum].
    destruct I as [->|I].
    - rewrite Nat.leb_refl, Nat.ltb_irrefl.
      replace (rsum (fun x => if (rank x <=? rank y)%nat then pr x else 0) os) with (rsum (fun x => if (rank x <? rank y)%nat then pr x else 0) os); [lra|].
      apply rsum_ext. intros z Iz. destruct (Nat.leb_spec (rank z) (rank y)), (Nat.ltb_spec (rank z) (rank y)); try lia; try reflexivity.
      exfalso. apply N1. replace (rank y) with (rank z) by lia. apply in_map, Iz.
    - rewrite IH by assumption. destruct (Nat.leb_spec (rank x) (rank y)), (Nat.ltb_spec (rank x) (rank y)); try lia; try lra.
      exfalso. apply N1. replace (rank x) with (rank y) by lia. apply in_map, I.
  Qed.
  Lemma best_some os pr k y : NoDup (map rank os) -> In y os ->
    best_prob os rank pr k (Some y) = (below pr os y + pr y) ^ k - below pr os y ^ k.
  Proof.
    intros N I. rewrite <- (at_rank os pr y N I). unfold below. rewrite <- !runs_all. unfold best_prob. cbn [released].
    rewrite !rsum_filter, <- rsum_minus. apply rsum_ext. intros l _. destruct (best_split y l) as [-> H].
    change (released rank (Some y) l) with (is_best rank y l). revert H. destruct (is_best rank y l), (forallb _ l); cbn; intros; try discriminate; lra.
  Qed.

  Lemma top_rank (l : list A) : l <> [] -> NoDup (map rank l) ->
    exists l' y, Permutation l (y :: l') /\ forall x, In x l' -> (rank x < rank y)%nat.
  Proof.
    induction l as [|x l IH]; [congruence|]. intros _ N. cbn [map] in N. inversion_clear N as [|? ? N1 N2]. destruct l as [|z l].
    - exists [], x. split; [apply Permutation_refl | intros ? []].
    - destruct (IH ltac:(discriminate) N2) as (l' & y & P & H). destruct (Nat.lt_ge_cases (rank x) (rank y)) as [L|L].
      + exists (x :: l'), y. split; [eapply Permutation_trans; [apply perm_skip, P | apply perm_swap]|]. intros w [<-|I]; auto.
      + exists (y :: l'), x. split; [apply perm_skip, P|].
        assert (rank x <> rank y). { intros e. apply N1. rewrite e. apply in_map. eapply Permutation_in; [apply Permutation_sym, P | left; reflexivity]. }
        intros w [<-|I]; [lia|]. specialize (H w I). lia.
  Qed.
  Lemma below_perm pr l l' y : Permutation l l' -> below pr l y = below pr l' y.
  Proof. intros P. apply rsum_perm, P. Qed.
  (** Differences between consecutive ranks telescope. *)
  Lemma telescope (G : R -> R -> R) (p q : A -> R) n : forall l, length l = n -> NoDup (map rank l) ->
    rsum (fun y => G (below p l y + p y) (below q l y + q y) - G (below p l y) (below q l y)) l =
    G (rsum p l) (rsum q l) - G 0 0.
  Proof.
    induction n as [|n IH]; intros l L N.
    - destruct l; [|discriminate]. cbn. lra.
    - destruct (top_rank l) as (l' & y & P & H); [destruct l; discriminate | exact N |].
      assert (N' : NoDup (map rank (y :: l'))) by (eapply Permutation_NoDup; [apply Permutation_map, P | exact N]).
      cbn [map] in N'. inversion_clear N' as [|? ? N1 N2].
      assert (L' : length l' = n) by (apply Permutation_length in P; cbn in P; lia).
      rewrite (rsum_perm _ _ _ P), (rsum_perm p _ _ P), (rsum_perm q _ _ P).
      rewrite (rsum_ext _ (fun z => G (below p (y :: l') z + p z) (below q (y :: l') z + q z) - G (below p (y :: l') z) (below q (y :: l') z)))
        by (intros z _; rewrite !(below_perm _ _ _ z P); reflexivity).
      cbn [rsum].
      assert (Top : forall r, below r (y :: l') y = rsum r l').
      { intros r. unfold below. cbn [rsum]. rewrite Nat.ltb_irrefl, Rplus_0_l. apply rsum_ext. intros z Iz.
        rewrite (proj2 (Nat.ltb_lt _ _)) by (apply H, Iz). reflexivity. }
      assert (Low : forall r z, In z l' -> below r (y :: l') z = below r l' z).
      { intros r z Iz. unfold below. cbn [rsum]. specialize (H z Iz). rewrite (proj2 (Nat.ltb_ge (rank y) (rank z))) by lia. lra. }
      rewrite (rsum_ext _ (fun z => G (below p l' z + p z) (below q l' z + q z) - G (below p l' z) (below q l' z)))
        by (intros z Iz; rewrite !Low by exact Iz; reflexivity).
      rewrite !Top, (IH l' L' N2), (Rplus_comm (rsum p l')), (Rplus_comm (rsum q l')). lra.
  Qed.

  (** The probability of at least rank [y], a fraction [u] of [y] itself left out. *)
  Definition share (u : R) (y x : A) : R := if (rank x <? rank y)%nat then 0 else if (rank x =? rank y)%nat then 1 - u else 1.
  Lemma share_range u y x : 0 <= u <= 1 -> 0 <= share u y x <= 1.
  Proof. intros H. unfold share. destruct (_ <? _)%nat; [lra|]. destruct (_ =? _)%nat; lra. Qed.
  Lemma share_sum (pr : A -> R) os u y : NoDup (map rank os) -> In y os -> rsum pr os = 1 ->
    rsum (fun x => share u y x * pr x) os = 1 - (below pr os y + u * pr y).
  Proof.
    intros N I S. rewrite <- S. unfold below. clear S. induction os as [|x os IH]; [contradiction|]. cbn [map] in N. inversion_clear N as [|? ? N1 N2]. cbn [rsum].
    destruct I as [->|I].
    - unfold share at 1. rewrite Nat.ltb_irrefl, Nat.eqb_refl.
      replace (rsum (fun x => share u y x * pr x) os) with (rsum pr os - rsum (fun x => if (rank x <? rank y)%nat then pr x else 0) os); [lra|].
      rewrite <- rsum_minus. apply rsum_ext. intros z Iz. unfold share. destruct (rank z <? rank y)%nat; [lra|].
      destruct (Nat.eqb_spec (rank z) (rank y)) as [e|]; [|lra]. exfalso. apply N1. rewrite <- e. apply in_map, Iz.
    - rewrite IH by assumption. unfold share. destruct (rank x <? rank y)%nat; [lra|]. destruct (Nat.eqb_spec (rank x) (rank y)) as [e|]; [|lra].
      exfalso. apply N1. rewrite e. apply in_map, I.
  Qed.
  Lemma below_range pr os y u : (forall x, In x os -> 0 <= pr x) -> rsum pr os = 1 -> NoDup (map rank os) -> In y os -> 0 <= u <= 1 ->
    0 <= below pr os y /\ below pr os y + u * pr y <= 1.
  Proof.
    intros P S N I U. split.
    - apply rsum_nonneg. intros x Ix. destruct (_ <? _)%nat; [auto | lra].
    - pose proof (share_sum pr os u y N I S). assert (0 <= rsum (fun x => share u y x * pr x) os); [|lra].
      apply rsum_nonneg. intros x Ix. apply Rmult_le_pos; [apply share_range, U | auto].
  Qed.
End Select.

(** ** Through the generating function *)
Lemma infsum_plus u v l m : infinite_sum u l -> infinite_sum v m -> infinite_sum (fun k => u k + v k) (l + m).
Proof.
  intros H1 H2. intros e He. destruct (H1 (e / 2) ltac:(lra)) as [N1 A1]. destruct (H2 (e / 2) ltac:(lra)) as [N2 A2].
  exists (max N1 N2). intros n Hn. specialize (A1 n ltac:(lia)). specialize (A2 n ltac:(lia)).
  rewrite sum_plus. unfold R_dist in *. replace (sum_f_R0 u n + sum_f_R0 v n - (l + m)) with ((sum_f_R0 u n - l) + (sum_f_R0 v n - m)) by ring.
  eapply Rle_lt_trans; [apply Rabs_triang|]. lra.
Qed.
Lemma infsum_scal c u l : infinite_sum u l -> infinite_sum (fun k => c * u k) (c * l).
Proof.
  intros H e He. destruct (Req_dec c 0) as [->|N].
  - exists 0%nat. intros n _. unfold R_dist.
    replace (sum_f_R0 (fun k => 0 * u k) n) with (0 * sum_f_R0 u n) by (rewrite scal_sum; apply sum_eq; intros; ring).
    replace (0 * sum_f_R0 u n - 0 * l) with 0 by ring. rewrite Rabs_R0. assumption.
  - pose proof (Rabs_pos_lt c N) as Hc. destruct (H (e / Rabs c)) as [M A]; [apply Rdiv_lt_0_compat; assumption|].
    exists M. intros n Hn. specialize (A n Hn). unfold R_dist in *.
    replace (sum_f_R0 (fun k => c * u k) n) with (c * sum_f_R0 u n) by (rewrite scal_sum; apply sum_eq; intros; ring).
    replace (c * sum_f_R0 u n - c * l) with (c * (sum_f_R0 u n - l)) by ring. rewrite Rabs_mult.
    apply (Rmult_lt_compat_l (Rabs c)) in A; [|assumption]. replace (Rabs c * (e / Rabs c)) with e in A by (field; lra). assumption.
Qed.
Lemma infsum_ext u v l : (forall k, u k = v k) -> infinite_sum u l -> infinite_sum v l.
Proof. intros E H e He. destruct (H e He) as [N A]. exists N. intros n Hn. rewrite <- (sum_eq u v n) by auto. auto. Qed.

Lemma selected pk f E A : (forall x, 0 <= x <= 1 -> infinite_sum (fun k => pk k * x ^ k) (f x)) -> valid E -> selects pk E A ->
  exists (rank : outcome E -> nat) (sP sQ : option (outcome E) -> R),
    NoDup (map rank (outs E)) /\ A = {| outcome := option (outcome E); outs := None :: map Some (outs E); prP := sP; prQ := sQ |} /\
    sP None = f 0 /\ sQ None = f 0 /\
    forall y, In y (outs E) ->
      sP (Some y) = f (below rank (prP E) (outs E) y + prP E y) - f (below rank (prP E) (outs E) y) /\
      sQ (Some y) = f (below rank (prQ E) (outs E) y + prQ E y) - f (below rank (prQ E) (outs E) y).
Proof.
  intros F (V1 & SP & SQ) (rank & sP & sQ & N & H & ->). exists rank, sP, sQ. split; [exact N|]. split; [reflexivity|].
  assert (ONE : forall pr s, (forall x, In x (outs E) -> 0 <= pr x) -> rsum pr (outs E) = 1 ->
     (forall o, In o (None :: map Some (outs E)) -> infinite_sum (fun k => pk k * best_prob (outs E) rank pr k o) (s o)) ->
     s None = f 0 /\ forall y, In y (outs E) -> s (Some y) = f (below rank pr (outs E) y + pr y) - f (below rank pr (outs E) y)).
  { intros pr s P S I. split.
    - apply (uniqueness_sum (fun k => pk k * best_prob (outs E) rank pr k None)); [apply I; left; reflexivity|].
      eapply infsum_ext; [|apply (F 0); lra]. intros k. cbn beta. rewrite best_none. reflexivity.
    - intros y Iy. apply (uniqueness_sum (fun k => pk k * best_prob (outs E) rank pr k (Some y))); [apply I; right; apply in_map, Iy|].
      destruct (below_range rank pr (outs E) y 0 P S N Iy ltac:(lra)) as [R1 R2]. destruct (below_range rank pr (outs E) y 1 P S N Iy ltac:(lra)) as [_ R3].
      pose proof (P y Iy) as R4. rewrite Rmult_1_l in R3. rewrite Rmult_0_l, Rplus_0_r in R2.
      replace (f (below rank pr (outs E) y + pr y) - f (below rank pr (outs E) y)) with (f (below rank pr (outs E) y + pr y) + (-1) * f (below rank pr (outs E) y)) by ring.
      eapply infsum_ext; [|apply (infsum_plus _ (fun k => (-1) * (pk k * below rank pr (outs E) y ^ k)) _ ((-1) * f (below rank pr (outs E) y)) (F (below rank pr (outs E) y + pr y) ltac:(lra)) (infsum_scal _ _ _ (F (below rank pr (outs E) y) ltac:(lra))))].
      intros k. cbn beta. rewrite (best_some rank _ _ _ _ N Iy). ring. }
  destruct (ONE (prP E) sP) as [P0 P1]; [intros x Ix; apply (V1 x Ix) | exact SP | intros o Io; apply (H o Io)|].
  destruct (ONE (prQ E) sQ) as [Q0 Q1]; [intros x Ix; apply (V1 x Ix) | exact SQ | intros o Io; apply (H o Io)|].
  split; [exact P0|]. split; [exact Q0|]. intros y Iy. split; [apply P1 | apply Q1]; exact Iy.
Qed.
Lemma selects_swap pk E A : selects pk E A -> selects pk (swap E) (swap A).
Proof.
  intros (rank & sP & sQ & N & H & ->). exists rank, sQ, sP. split; [exact N|]. split; [|reflexivity]. intros o Io. destruct (H o Io). split; assumption.
Qed.
