(** Truncation of tails and composition of pmfs. *)
From Verif Require Import Base XReal Exn PyDict ModelCommon ModelPmf SpecDP SpecPmf
  ProofDP ProofDict ProofPmf.
From Coq Require Import Permutation Sorted.

Notation lmass := (rsum (fun x : R => x)).

Lemma skip_prefix_sum thr l : forall s,
  skip_prefix thr s l = 0%nat \/ s + lmass (firstn (skip_prefix thr s l) l) <= thr.
Proof.
  induction l as [|x l IH]; intros s; simpl; [left; reflexivity|].
  rcase; [left; reflexivity|]. right. cbn [firstn rsum].
  destruct (IH (s + x)) as [E|H]; [rewrite E; simpl; lra | lra].
Qed.

Lemma skip_prefix_le thr l : forall s, (skip_prefix thr s l <= length l)%nat.
Proof.
  induction l as [|x l IH]; intros s; simpl; [lia|]. rcase; [lia|]. specialize (IH (s + x)). lia.
Qed.

(** the skipped prefix is the longest one within the threshold *)
Lemma skip_prefix_max thr l : forall s, (skip_prefix thr s l < length l)%nat ->
  thr < s + lmass (firstn (S (skip_prefix thr s l)) l).
Proof.
  induction l as [|x l IH]; intros s; cbn [skip_prefix length]; [lia|]. rcase; intros H.
  - simpl. lra.
  - specialize (IH (s + x) ltac:(lia)).
    set (k := skip_prefix thr (s + x) l) in *.
    rewrite (firstn_cons (S k)). cbn [rsum]. lra.
Qed.

Definition small (A : list R) (t : R) : Prop := A = [] \/ lmass A <= t.

Lemma lmass_nonneg l : (forall x, In x l -> 0 <= x) -> 0 <= lmass l.
Proof. intros H; apply rsum_nonneg; assumption. Qed.

Lemma In_skipn {A} n (l : list A) x : In x (skipn n l) -> In x l.
Proof.
  revert l. induction n as [|n IH]; intros l; simpl; [auto|].
  destruct l; [auto|]. intros H; right; apply IH; assumption.
Qed.
Lemma In_firstn {A} n (l : list A) x : In x (firstn n l) -> In x l.
Proof.
  revert l. induction n as [|n IH]; intros l; simpl; [contradiction|].
  destruct l; [auto|]. intros [H|H]; [left; assumption | right; apply IH; assumption].
Qed.

Lemma skipn_skipn {A} a b (l : list A) : skipn a (skipn b l) = skipn (a + b) l.
Proof.
  revert l. induction b as [|b IH]; intros l; [rewrite Nat.add_0_r; reflexivity|].
  rewrite Nat.add_succ_r. destruct l; [rewrite !skipn_nil; reflexivity|]. simpl. apply IH.
Qed.

Lemma lmass_skipn_le l a b : (forall x, In x l -> 0 <= x) -> (a <= b)%nat ->
  lmass (skipn b l) <= lmass (skipn a l).
Proof.
  intros H Hab. rewrite <- (firstn_skipn (b - a) (skipn a l)), rsum_app, skipn_skipn.
  replace (b - a + a)%nat with b by lia.
  assert (0 <= lmass (firstn (b - a) (skipn a l))); [|lra].
  apply lmass_nonneg. intros x Hx. apply H, (In_skipn a), (In_firstn (b - a)), Hx.
Qed.

Lemma truncate_struct probs tail pess off l' right :
  (forall x, In x probs -> 0 <= x) -> tail <> 0 ->
  truncate_tails probs tail pess = Ok (off, l', right) ->
  exists A M B, probs = A ++ M ++ B /\ length A = off /\ M <> [] /\
    small A (tail / 2) /\ small B (tail / 2) /\
    (if pess then exists x rest, M = x :: rest /\ l' = (x + lmass A) :: rest /\ right = lmass B
     else exists x rest, M = rest ++ [x] /\ l' = rest ++ [x + lmass B] /\ right = 0).
Proof.
  intros Hp Ht H. unfold truncate_tails in H. rewrite Reqb_false in H by assumption.
  set (lf := find_prefix probs (tail / 2)) in *.
  set (k := find_prefix (rev probs) (tail / 2)) in *.
  set (rt := Nat.max (length probs - k) (lf + 1)) in *.
  set (A := firstn lf probs). set (M := firstn (rt - lf) (skipn lf probs)) in *.
  set (B := skipn rt probs).
  assert (Hlf : (lf <= length probs)%nat) by apply skip_prefix_le.
  assert (Hk : (k <= length probs)%nat).
  { unfold k, find_prefix. rewrite <- (rev_length probs). apply skip_prefix_le. }
  assert (Hrt : (lf + 1 <= rt)%nat) by (unfold rt; lia).
  assert (E : probs = A ++ M ++ B).
  { unfold A, M, B. replace (skipn rt probs) with (skipn (rt - lf) (skipn lf probs)).
    - rewrite firstn_skipn, firstn_skipn. reflexivity.
    - rewrite skipn_skipn. f_equal. lia. }
  assert (SA : small A (tail / 2)).
  { unfold small, A, lf, find_prefix. destruct (skip_prefix_sum (tail / 2) probs 0) as [E0|E0].
    - left. rewrite E0. reflexivity.
    - right. lra. }
  assert (SB : small B (tail / 2)).
  { unfold small, B. destruct (skip_prefix_sum (tail / 2) (rev probs) 0) as [E0|E0].
    - left. apply skipn_all2. unfold rt, k, find_prefix. rewrite E0. lia.
    - right. fold (find_prefix (rev probs) (tail / 2)) in E0. fold k in E0.
      apply Rle_trans with (lmass (skipn (length probs - k) probs)).
      + apply lmass_skipn_le; [assumption | unfold rt; lia].
      + rewrite firstn_rev, rsum_rev in E0. lra. }
  assert (LA : length A = lf) by (unfold A; rewrite firstn_length; lia).
  exists A, M, B. destruct pess.
  - destruct M as [|x rest] eqn:EM; [discriminate|]. injection H as <- <- <-.
    repeat split; auto; [discriminate|]. exists x, rest. auto.
  - destruct (rev M) as [|x rest] eqn:EM; [discriminate|]. injection H as <- <- <-.
    assert (EM' : M = rev rest ++ [x]) by (rewrite <- (rev_involutive M), EM; reflexivity).
    repeat split; auto.
    + rewrite EM'. destruct (rev rest); discriminate.
    + exists x, (rev rest). simpl. auto.
Qed.

Definition mono_on (n : nat) (h : Z -> R) : Prop :=
  forall i j, (0 <= i)%Z -> (i <= j)%Z -> (j < Z.of_nat n)%Z -> h i <= h j.

Lemma small_le A t : small A t -> 0 <= t -> lmass A <= t.
Proof. intros [->|H] Ht; [simpl; lra | assumption]. Qed.

Section Trunc.
  Variables (probs : list R) (tail : R) (off : nat) (l' : list R) (right : R).
  Variables (h : Z -> R) (G : R).
  Hypothesis Hp : forall x, In x probs -> 0 <= x.
  Hypothesis Hmono : mono_on (length probs) h.
  Hypothesis Hh : forall z, 0 <= h z <= G.

  Lemma truncate_pess :
    truncate_tails probs tail true = Ok (off, l', right) ->
    lsum 0 probs h <= lsum (Z.of_nat off) l' h + right * G /\
    (0 <= tail -> lsum (Z.of_nat off) l' h + right * G <= lsum 0 probs h + tail * G) /\
    (forall x, In x l' -> 0 <= x) /\ 0 <= right /\
    lmass l' + right = lmass probs /\ (off + length l' <= length probs)%nat.
  Proof.
    intros H. destruct (Req_dec tail 0) as [T0|T0].
    { unfold truncate_tails in H. rewrite Reqb_true in H by assumption.
      injection H as <- <- <-. simpl (Z.of_nat 0). repeat split; auto; try (intros; subst tail; lra). }
    destruct (truncate_struct _ _ _ _ _ _ Hp T0 H) as
      (A & M & B & E & LA & NM & SA & SB & x & rest & EM & -> & ->).
    assert (HA : forall y, In y A -> 0 <= y) by (intros; apply Hp; rewrite E; apply in_or_app; auto).
    assert (HM : forall y, In y M -> 0 <= y)
      by (intros; apply Hp; rewrite E; apply in_or_app; right; apply in_or_app; auto).
    assert (HB : forall y, In y B -> 0 <= y)
      by (intros; apply Hp; rewrite E; apply in_or_app; right; apply in_or_app; auto).
    pose proof (lmass_nonneg A HA) as NA. pose proof (lmass_nonneg B HB) as NB.
    assert (LE : length probs = (off + (length M + length B))%nat)
      by (rewrite E, !app_length, LA; reflexivity).
    assert (LM : length M = S (length rest)) by (rewrite EM; reflexivity).
    assert (ES : lsum 0 probs h = lsum 0 A h + (lsum (Z.of_nat off) M h
               + lsum (Z.of_nat off + Z.of_nat (length M)) B h)).
    { rewrite E, !lsum_app, LA. reflexivity. }
    assert (EL : lsum (Z.of_nat off) ((x + lmass A) :: rest) h =
                 lsum (Z.of_nat off) M h + lmass A * h (Z.of_nat off)).
    { rewrite EM. cbn [lsum]. lra. }
    assert (BA1 : lsum 0 A h <= lmass A * h (Z.of_nat off)).
    { rewrite <- (lsum_const 0 A). apply lsum_le; [assumption|]. intros z Hz.
      apply Hmono; lia. }
    assert (BA0 : 0 <= lsum 0 A h) by (apply lsum_nonneg; [assumption | intros; apply Hh]).
    assert (BB1 : lsum (Z.of_nat off + Z.of_nat (length M)) B h <= lmass B * G).
    { rewrite <- (lsum_const (Z.of_nat off + Z.of_nat (length M)) B).
      apply lsum_le; [assumption|]. intros; apply Hh. }
    assert (BB0 : 0 <= lsum (Z.of_nat off + Z.of_nat (length M)) B h)
      by (apply lsum_nonneg; [assumption | intros; apply Hh]).
    pose proof (Hh (Z.of_nat off)) as HG.
    repeat split.
    - rewrite ES, EL. lra.
    - intros Ht. rewrite ES, EL.
      pose proof (small_le A _ SA ltac:(lra)). pose proof (small_le B _ SB ltac:(lra)).
      assert (lmass A * h (Z.of_nat off) <= tail / 2 * G) by (apply Rmult_le_compat; lra).
      assert (lmass B * G <= tail / 2 * G) by (apply Rmult_le_compat_r; lra). lra.
    - intros y [<-|Hy].
      + assert (0 <= x) by (apply HM; rewrite EM; left; reflexivity). lra.
      + apply HM. rewrite EM. right; assumption.
    - assumption.
    - rewrite E, EM, !rsum_app. cbn [rsum]. lra.
    - simpl. lia.
  Qed.

  Lemma truncate_opt :
    truncate_tails probs tail false = Ok (off, l', right) ->
    lsum (Z.of_nat off) l' h <= lsum 0 probs h /\
    (0 <= tail -> lsum 0 probs h <= lsum (Z.of_nat off) l' h + tail * G) /\
    (forall x, In x l' -> 0 <= x) /\ right = 0 /\ (off + length l' <= length probs)%nat.
  Proof.
    intros H. destruct (Req_dec tail 0) as [T0|T0].
    { unfold truncate_tails in H. rewrite Reqb_true in H by assumption.
      injection H as <- <- <-. simpl (Z.of_nat 0). repeat split; auto; try (intros; subst tail; lra). }
    destruct (truncate_struct _ _ _ _ _ _ Hp T0 H) as
      (A & M & B & E & LA & NM & SA & SB & x & rest & EM & -> & ->).
    assert (HA : forall y, In y A -> 0 <= y) by (intros; apply Hp; rewrite E; apply in_or_app; auto).
    assert (HM : forall y, In y M -> 0 <= y)
      by (intros; apply Hp; rewrite E; apply in_or_app; right; apply in_or_app; auto).
    assert (HB : forall y, In y B -> 0 <= y)
      by (intros; apply Hp; rewrite E; apply in_or_app; right; apply in_or_app; auto).
    pose proof (lmass_nonneg A HA) as NA. pose proof (lmass_nonneg B HB) as NB.
    assert (LE : length probs = (off + (length M + length B))%nat)
      by (rewrite E, !app_length, LA; reflexivity).
    assert (LM : length M = S (length rest))
      by (rewrite EM, app_length; simpl; lia).
    assert (ES : lsum 0 probs h = lsum 0 A h + (lsum (Z.of_nat off) M h
               + lsum (Z.of_nat off + Z.of_nat (length M)) B h)).
    { rewrite E, !lsum_app, LA. reflexivity. }
    set (last := (Z.of_nat off + Z.of_nat (length rest))%Z).
    assert (EL : lsum (Z.of_nat off) (rest ++ [x + lmass B]) h =
                 lsum (Z.of_nat off) M h + lmass B * h last).
    { rewrite EM, !lsum_app. cbn [lsum]. fold last. lra. }
    assert (BA1 : lsum 0 A h <= lmass A * G).
    { rewrite <- (lsum_const 0 A). apply lsum_le; [assumption|]. intros; apply Hh. }
    assert (BA0 : 0 <= lsum 0 A h) by (apply lsum_nonneg; [assumption | intros; apply Hh]).
    assert (BB1 : lsum (Z.of_nat off + Z.of_nat (length M)) B h <= lmass B * G).
    { rewrite <- (lsum_const (Z.of_nat off + Z.of_nat (length M)) B).
      apply lsum_le; [assumption|]. intros; apply Hh. }
    assert (BB0 : lmass B * h last <= lsum (Z.of_nat off + Z.of_nat (length M)) B h).
    { rewrite <- (lsum_const (Z.of_nat off + Z.of_nat (length M)) B).
      apply lsum_le; [assumption|]. intros z Hz. apply Hmono; unfold last; lia. }
    pose proof (Hh last) as HG.
    repeat split.
    - rewrite ES, EL. lra.
    - intros Ht. rewrite ES, EL.
      pose proof (small_le A _ SA ltac:(lra)). pose proof (small_le B _ SB ltac:(lra)).
      assert (lmass A * G <= tail / 2 * G) by (apply Rmult_le_compat_r; lra).
      assert (lmass B * G <= tail / 2 * G) by (apply Rmult_le_compat_r; lra).
      assert (0 <= lmass B * h last) by (apply Rmult_le_pos; lra). lra.
    - intros y Hy. apply in_app_or in Hy. destruct Hy as [Hy|[<-|[]]].
      + apply HM. rewrite EM. apply in_or_app; auto.
      + assert (0 <= x) by (apply HM; rewrite EM; apply in_or_app; right; left; reflexivity). lra.
    - rewrite app_length. simpl. lia.
  Qed.
End Trunc.

(** ** sparse results *)
Lemma dset_fresh d k v : ~ In k (keys d) -> dset d k v = d ++ [(k, v)].
Proof.
  induction d as [|[k' v'] d IH]; simpl; intros H; [reflexivity|].
  destruct (Z.eqb_spec k' k); [exfalso; auto|]. rewrite IH; auto.
Qed.

Lemma dict_of_NoDup_aux l : forall d, NoDup (keys d ++ keys l) ->
  fold_left (fun d kv => dset d (fst kv) (snd kv)) l d = d ++ l.
Proof.
  induction l as [|[k v] l IH]; intros d ND; simpl; [rewrite app_nil_r; reflexivity|].
  simpl in ND. rewrite dset_fresh.
  - rewrite IH; [rewrite <- app_assoc; reflexivity|].
    unfold keys in *. rewrite map_app. simpl. rewrite <- app_assoc. exact ND.
  - apply NoDup_remove_2 in ND. intros Hin; apply ND. apply in_or_app; auto.
Qed.

Lemma dict_of_NoDup l : NoDup (keys l) -> dict_of l = l.
Proof. intros H. apply (dict_of_NoDup_aux l []). exact H. Qed.

Lemma keys_combine ks (l : list R) : length ks = length l -> keys (combine ks l) = ks.
Proof.
  revert l. induction ks as [|k ks IH]; intros [|x l] H; simpl in *; try discriminate; [reflexivity|].
  f_equal. apply IH. lia.
Qed.

Lemma dsum_combine ks l g : length ks = length l -> forall z,
  dsum (combine ks l) g = lsum z l (fun i => g (nth (Z.to_nat (i - z)) ks 0%Z)).
Proof.
  unfold dsum. revert ks. induction l as [|x l IH]; intros [|k ks] H z; simpl in H; try discriminate.
  - reflexivity.
  - cbn [combine rsum lsum fst snd]. rewrite (IH ks ltac:(lia) (z + 1)%Z).
    replace (Z.to_nat (z - z)) with 0%nat by lia. cbn [nth]. f_equal.
    apply lsum_ext. intros i Hi. f_equal.
    replace (Z.to_nat (i - z)) with (S (Z.to_nat (i - (z + 1)))) by lia. reflexivity.
Qed.

Lemma nth_skipn {A} (l : list A) a i d : nth i (skipn a l) d = nth (a + i) l d.
Proof.
  revert l. induction a as [|a IH]; intros l; [reflexivity|].
  destruct l; [simpl; destruct i; reflexivity|]. simpl. apply IH.
Qed.
Lemma nth_firstn {A} (l : list A) n i d : (i < n)%nat -> nth i (firstn n l) d = nth i l d.
Proof.
  revert l i. induction n as [|n IH]; intros l i H; [lia|].
  destruct l; [destruct i; reflexivity|]. destruct i; [reflexivity|]. simpl. apply IH. lia.
Qed.

Lemma NoDup_app_l {A} (l1 l2 : list A) : NoDup (l1 ++ l2) -> NoDup l1 /\ NoDup l2.
Proof.
  induction l1 as [|x l1 IH]; simpl; intros H; [split; [constructor | assumption]|].
  inversion H; subst. destruct (IH H3). split; [|assumption]. constructor; auto.
  intros Hin; apply H2, in_or_app; auto.
Qed.
Lemma NoDup_firstn {A} n (l : list A) : NoDup l -> NoDup (firstn n l).
Proof.
  intros H. rewrite <- (firstn_skipn n l) in H. apply NoDup_app_l in H. apply H.
Qed.
Lemma NoDup_skipn {A} n (l : list A) : NoDup l -> NoDup (skipn n l).
Proof.
  intros H. rewrite <- (firstn_skipn n l) in H. apply NoDup_app_l in H. apply H.
Qed.

Lemma sorted_nth l : StronglySorted Z.lt l -> forall i j, (i <= j < length l)%nat ->
  (nth i l 0 <= nth j l 0)%Z.
Proof.
  induction 1 as [|x l S IH F]; intros i j Hij; simpl in *; [lia|].
  destruct i, j; try lia.
  - rewrite Forall_forall in F. specialize (F (nth j l 0%Z)).
    apply Z.lt_le_incl, F, nth_In. lia.
  - apply IH. lia.
Qed.

Lemma sparse_convolve_spec d1 d2 g :
  dsum (sparse_convolve d1 d2) g = dsum d1 (fun i => dsum d2 (fun j => g (i + j)%Z)) /\
  NoDup (keys (sparse_convolve d1 d2)).
Proof.
  unfold sparse_convolve.
  assert (H : forall l c, NoDup (keys c) ->
    dsum (fold_left (fun c kv1 =>
      fold_left (fun c kv2 => dadd c (fst kv1 + fst kv2) (snd kv1 * snd kv2)) d2 c) l c) g =
      dsum c g + dsum l (fun i => dsum d2 (fun j => g (i + j)%Z)) /\
    NoDup (keys (fold_left (fun c kv1 =>
      fold_left (fun c kv2 => dadd c (fst kv1 + fst kv2) (snd kv1 * snd kv2)) d2 c) l c))).
  { induction l as [|[k1 v1] l IH]; intros c ND; cbn [fold_left].
    - split; [unfold dsum; simpl; lra | assumption].
    - destruct (dsum_fold (fun kv => (k1 + fst kv)%Z) (fun kv => v1 * snd kv) d2 g c ND) as [E N].
      cbn [fst snd] in *. destruct (IH _ N) as [E2 N2]. split; [|assumption].
      rewrite E2, E.
      replace (dsum ((k1, v1) :: l) (fun i => dsum d2 (fun j => g (i + j)%Z)))
        with (v1 * dsum d2 (fun j => g (k1 + j)%Z) + dsum l (fun i => dsum d2 (fun j => g (i + j)%Z)))
        by reflexivity.
      replace (rsum (fun kv => v1 * snd kv * g (k1 + fst kv)%Z) d2)
        with (v1 * dsum d2 (fun j => g (k1 + j)%Z)); [lra|].
      unfold dsum. rewrite <- rsum_scal. apply rsum_ext. intros; lra. }
  destruct (H d1 [] ltac:(constructor)) as [E N]. split; [|assumption].
  rewrite E. unfold dsum at 1. simpl. lra.
Qed.

(** ** Composition of pmfs *)
Definition conv2 (p q : pmf) (g : Z -> R) : R :=
  psum p (fun i => psum q (fun j => g (i + j)%Z)).

Definition mono (g : Z -> R) : Prop := forall i j, (i <= j)%Z -> g i <= g j.

Record compose_ok (p q : pmf) (tail : R) (r : pmf) : Prop := {
  co_disc : discretization q = discretization p;
  co_pess : pessimistic_estimate q = pessimistic_estimate p;
  co_rdisc : discretization r = discretization p;
  co_rpess : pessimistic_estimate r = pessimistic_estimate p;
  co_nonneg : forall k, 0 <= mass r k;
  co_nodup : match pmf_body r with Sparse d => NoDup (map fst d) | _ => True end;
  co_exact : tail = 0 -> (forall g, psum r g = conv2 p q g) /\
                        infinity_mass r = combine_inf (infinity_mass p) (infinity_mass q);
  co_inf : combine_inf (infinity_mass p) (infinity_mass q) <= infinity_mass r;
  co_pes : pessimistic_estimate p = true ->
    (conv2 p q (fun _ => 1) + combine_inf (infinity_mass p) (infinity_mass q) = total r) /\
    forall g G, mono g -> (forall z, 0 <= g z <= G) ->
      conv2 p q g + combine_inf (infinity_mass p) (infinity_mass q) * G <= ptest r g G /\
      (0 <= tail -> ptest r g G <=
         conv2 p q g + combine_inf (infinity_mass p) (infinity_mass q) * G + tail * G);
  co_opt : pessimistic_estimate p = false ->
    infinity_mass r = combine_inf (infinity_mass p) (infinity_mass q) /\
    forall g G, mono g -> (forall z, 0 <= g z <= G) ->
      psum r g <= conv2 p q g /\ (0 <= tail -> conv2 p q g <= psum r g + tail * G) }.

Lemma mass_ext p q : pmf_body p = pmf_body q -> forall k, mass p k = mass q k.
Proof. intros E k. unfold mass. rewrite E. reflexivity. Qed.

Lemma validate_ok p q u : validate_composable p q = Ok u ->
  same_class p q = true /\ discretization p = discretization q /\
  pessimistic_estimate p = pessimistic_estimate q.
Proof.
  unfold validate_composable.
  destruct (same_class p q); [|discriminate].
  destruct (Reqb_spec (discretization p) (discretization q)); [|discriminate].
  destruct (Bool.eqb (pessimistic_estimate p) (pessimistic_estimate q)) eqn:E; [|discriminate].
  apply Bool.eqb_prop in E. auto.
Qed.

Lemma truncate_zero probs pess : truncate_tails probs 0 pess = Ok (0%nat, probs, 0).
Proof. unfold truncate_tails. rewrite Reqb_true; reflexivity. Qed.

Lemma sparse_values d : NoDup (keys d) -> nonneg_dict d ->
  forall x, In x (map (dget0 d) (zsort (map fst d))) -> 0 <= x.
Proof. intros ND H x Hx. apply in_map_iff in Hx. destruct Hx as (k & <- & _). apply H. Qed.

Lemma lsum_sorted d g : NoDup (keys d) ->
  lsum 0 (map (dget0 d) (zsort (map fst d)))
    (fun z => g (nth (Z.to_nat z) (zsort (map fst d)) 0%Z)) = dsum d g.
Proof.
  intros ND. set (S := zsort (map fst d)).
  assert (E0 := rsum_keys d (fun k v => v * g k) ND). cbv beta in E0.
  unfold dsum at 1. rewrite <- E0.
  unfold keys. rewrite <- (rsum_zsort (fun k => dget0 d k * g k)). fold S.
  generalize S. clear. intros S.
  assert (H := dsum_combine S (map (dget0 d) S) g ltac:(rewrite map_length; reflexivity) 0%Z).
  transitivity (dsum (combine S (map (dget0 d) S)) g).
  - rewrite H. apply lsum_ext. intros z Hz. do 2 f_equal. f_equal. lia.
  - unfold dsum. clear. induction S as [|k S IH]; [reflexivity|].
    cbn [map combine rsum fst snd]. rewrite IH. reflexivity.
Qed.

Lemma lsum_one l lo : lsum lo l (fun _ => 1) = lmass l.
Proof. rewrite lsum_const. lra. Qed.

Lemma conv2_nonneg_dict d1 d2 :
  (forall kv, In kv d1 -> 0 <= snd kv) -> (forall kv, In kv d2 -> 0 <= snd kv) ->
  nonneg_dict (sparse_convolve d1 d2).
Proof.
  intros H1 H2 k.
  destruct (sparse_convolve_spec d1 d2 (ind k)) as [E N].
  rewrite <- dsum_ind by assumption. rewrite E.
  apply rsum_nonneg. intros [k1 v1] Hin1. apply Rmult_le_pos; [apply H1; assumption|].
  apply rsum_nonneg. intros [k2 v2] Hin2. apply Rmult_le_pos; [apply H2; assumption|].
  unfold ind. destruct (_ =? _)%Z; lra.
Qed.

Lemma pmf_compose_ok p q tail r :
  wf p -> wf q -> pmf_compose p q tail = Ok r -> compose_ok p q tail r.
Proof.
  intros Wp Wq H. unfold pmf_compose in H.
  apply bind_Ok in H. destruct H as (u & HV & H). apply validate_ok in HV.
  destruct HV as (HC & HD & HP).
  destruct (pmf_body p) as [d1|lo1 l1] eqn:Ep; destruct (pmf_body q) as [d2|lo2 l2] eqn:Eq;
    try discriminate.
  - (* sparse *)
    set (c := sparse_convolve d1 d2) in *.
    assert (Nd1 : NoDup (keys d1)) by (destruct Wp as (_&_&_&W); rewrite Ep in W; exact W).
    assert (Nd2 : NoDup (keys d2)) by (destruct Wq as (_&_&_&W); rewrite Eq in W; exact W).
    assert (P1 : forall kv, In kv d1 -> 0 <= snd kv).
    { apply nonneg_dict_iff; [assumption|]. intros k. destruct Wp as (_&_&W&_).
      specialize (W k). unfold mass in W. rewrite Ep in W. exact W. }
    assert (P2 : forall kv, In kv d2 -> 0 <= snd kv).
    { apply nonneg_dict_iff; [assumption|]. intros k. destruct Wq as (_&_&W&_).
      specialize (W k). unfold mass in W. rewrite Eq in W. exact W. }
    assert (Pc : nonneg_dict c) by (apply conv2_nonneg_dict; assumption).
    assert (Nc : NoDup (keys c)) by (apply (sparse_convolve_spec d1 d2 (fun _ => 0))).
    assert (Ec : forall g, dsum c g = conv2 p q g).
    { intros g. unfold c. rewrite (proj1 (sparse_convolve_spec d1 d2 g)).
      unfold conv2, psum. rewrite Ep, Eq. reflexivity. }
    set (S := zsort (map fst c)) in *. set (probs := map (dget0 c) S) in *.
    assert (SS : StronglySorted Z.lt S) by (apply zsort_lt; exact Nc).
    assert (NS : NoDup S).
    { eapply Permutation_NoDup; [apply Permutation_sym, zsort_perm | exact Nc]. }
    apply bind_Ok in H. destruct H as ([[off l'] right] & HT & H).
    injection H as <-.
    assert (LP : length probs = length S) by apply map_length.
    assert (Pp : forall x, In x probs -> 0 <= x) by (apply sparse_values; assumption).
    assert (LL : (off + length l' <= length probs)%nat /\ (forall x, In x l' -> 0 <= x)).
    { destruct (pessimistic_estimate p).
      - destruct (truncate_pess probs tail off l' right (fun _ => 0) 0 Pp
          ltac:(intros i j _ _ _; lra) ltac:(intros; lra) HT) as (_ & _ & N & _ & _ & L). auto.
      - destruct (truncate_opt probs tail off l' right (fun _ => 0) 0 Pp
          ltac:(intros i j _ _ _; lra) ltac:(intros; lra) HT) as (_ & _ & N & _ & L). auto. }
    destruct LL as [LL Pl'].
    set (S' := firstn (length l') (skipn off S)) in *.
    assert (LS' : length S' = length l').
    { unfold S'. rewrite firstn_length, skipn_length. lia. }
    assert (NS' : NoDup S') by (apply NoDup_firstn, NoDup_skipn, NS).
    assert (Nr : NoDup (keys (combine S' l'))) by (rewrite keys_combine; assumption).
    assert (Ed : dict_of (combine S' l') = combine S' l') by (apply dict_of_NoDup; assumption).
    rewrite Ed.
    pose (h := fun (g : Z -> R) z => g (nth (Z.to_nat z) S 0%Z)).
    assert (Er : forall g, dsum (combine S' l') g = lsum (Z.of_nat off) l' (h g)).
    { intros g. rewrite (dsum_combine S' l' g LS' (Z.of_nat off)).
      apply lsum_ext. intros z Hz. unfold h, S'. f_equal.
      rewrite nth_firstn by lia. rewrite nth_skipn. f_equal. lia. }
    assert (Ecp : forall g, lsum 0 probs (h g) = conv2 p q g).
    { intros g. rewrite <- Ec. apply lsum_sorted. exact Nc. }
    assert (Hm : forall g, mono g -> mono_on (length probs) (h g)).
    { intros g Hg i j Hi Hij Hj. apply Hg. apply sorted_nth; [assumption|]. lia. }
    constructor; cbn [discretization pessimistic_estimate infinity_mass pmf_body]; auto.
    + intros k. unfold mass. cbn [pmf_body].
      apply nonneg_dict_iff; [assumption|]. intros [k0 v0] Hin.
      apply in_combine_r in Hin. simpl. apply Pl'. assumption.
    + intros T0. subst tail. rewrite truncate_zero in HT. injection HT as <- <- <-. split; [|lra].
      intros g. unfold psum. cbn [pmf_body]. rewrite Er. apply Ecp.
    + destruct (pessimistic_estimate p).
      * destruct (truncate_pess probs tail off l' right (fun _ => 0) 0 Pp
          ltac:(intros i j _ _ _; lra) ltac:(intros; lra) HT) as (_ & _ & _ & N & _ & L). lra.
      * destruct (truncate_opt probs tail off l' right (fun _ => 0) 0 Pp
          ltac:(intros i j _ _ _; lra) ltac:(intros; lra) HT) as (_ & _ & _ & N & L). lra.
    + intros HPe. rewrite HPe in HT. split.
      * destruct (truncate_pess probs tail off l' right (fun _ => 0) 0 Pp
          ltac:(intros i j _ _ _; lra) ltac:(intros; lra) HT) as (_ & _ & _ & _ & EM & _).
        unfold total, psum. cbn [pmf_body infinity_mass]. rewrite Er. unfold h.
        rewrite lsum_one. rewrite <- (Ecp (fun _ => 1)). unfold h. rewrite lsum_one. lra.
      * intros g G Hg HG. destruct (truncate_pess probs tail off l' right (h g) G Pp
          (Hm g Hg) ltac:(intros; apply HG) HT) as (B1 & B2 & _ & _ & EM & _).
        rewrite Ecp in B1, B2. unfold ptest, psum. cbn [pmf_body infinity_mass]. rewrite Er.
        split; [nra|]. intros Ht; specialize (B2 Ht). nra.
    + intros HPe. rewrite HPe in HT. split.
      * destruct (truncate_opt probs tail off l' right (fun _ => 0) 0 Pp
          ltac:(intros i j _ _ _; lra) ltac:(intros; lra) HT) as (_ & _ & _ & N & L). lra.
      * intros g G Hg HG. destruct (truncate_opt probs tail off l' right (h g) G Pp
          (Hm g Hg) ltac:(intros; apply HG) HT) as (B1 & B2 & _ & _ & EM).
        rewrite Ecp in B1, B2. unfold psum. cbn [pmf_body infinity_mass]. rewrite Er. auto.
  - (* dense *)
    set (probs := convolve l1 l2) in *.
    assert (Pp : forall x, In x probs -> 0 <= x).
    { apply convolve_nonneg; [eapply (wf_dense_nonneg p) | eapply (wf_dense_nonneg q)]; eassumption. }
    apply bind_Ok in H. destruct H as ([[off l'] right] & HT & H). injection H as <-.
    pose (h := fun (g : Z -> R) z => g (z + (lo1 + lo2))%Z).
    assert (Ecp : forall g, lsum 0 probs (h g) = conv2 p q g).
    { intros g. unfold conv2, psum. rewrite Ep, Eq. rewrite <- convolve_lsum.
      unfold h. rewrite <- lsum_shift. rewrite Z.add_0_l. reflexivity. }
    assert (Er : forall g, lsum (lo1 + lo2 + Z.of_nat off) l' g = lsum (Z.of_nat off) l' (h g)).
    { intros g. unfold h. rewrite <- (lsum_shift (Z.of_nat off) l' g). f_equal. lia. }
    assert (Hm : forall g, mono g -> mono_on (length probs) (h g)).
    { intros g Hg i j Hi Hij Hj. apply Hg. lia. }
    assert (Pl' : forall x, In x l' -> 0 <= x).
    { destruct (pessimistic_estimate p).
      - destruct (truncate_pess probs tail off l' right (fun _ => 0) 0 Pp
          ltac:(intros i j _ _ _; lra) ltac:(intros; lra) HT) as (_ & _ & N & _ & _ & L). auto.
      - destruct (truncate_opt probs tail off l' right (fun _ => 0) 0 Pp
          ltac:(intros i j _ _ _; lra) ltac:(intros; lra) HT) as (_ & _ & N & _ & L). auto. }
    constructor; cbn [discretization pessimistic_estimate infinity_mass pmf_body]; auto.
    + intros k. unfold mass. cbn [pmf_body]. destruct (Z.ltb k (lo1 + lo2 + Z.of_nat off)); [lra|].
      apply nth_nonneg_In. assumption.
    + intros T0. subst tail. rewrite truncate_zero in HT. injection HT as <- <- <-. split; [|lra].
      intros g. unfold psum. cbn [pmf_body]. rewrite Er. apply Ecp.
    + destruct (pessimistic_estimate p).
      * destruct (truncate_pess probs tail off l' right (fun _ => 0) 0 Pp
          ltac:(intros i j _ _ _; lra) ltac:(intros; lra) HT) as (_ & _ & _ & N & _ & L). lra.
      * destruct (truncate_opt probs tail off l' right (fun _ => 0) 0 Pp
          ltac:(intros i j _ _ _; lra) ltac:(intros; lra) HT) as (_ & _ & _ & N & L). lra.
    + intros HPe. rewrite HPe in HT. split.
      * destruct (truncate_pess probs tail off l' right (fun _ => 0) 0 Pp
          ltac:(intros i j _ _ _; lra) ltac:(intros; lra) HT) as (_ & _ & _ & _ & EM & _).
        unfold total, psum. cbn [pmf_body infinity_mass]. rewrite Er. unfold h.
        rewrite lsum_one. rewrite <- (Ecp (fun _ => 1)). unfold h. rewrite lsum_one. lra.
      * intros g G Hg HG. destruct (truncate_pess probs tail off l' right (h g) G Pp
          (Hm g Hg) ltac:(intros; apply HG) HT) as (B1 & B2 & _ & _ & EM & _).
        rewrite Ecp in B1, B2. unfold ptest, psum. cbn [pmf_body infinity_mass]. rewrite Er.
        split; [nra|]. intros Ht; specialize (B2 Ht). nra.
    + intros HPe. rewrite HPe in HT. split.
      * destruct (truncate_opt probs tail off l' right (fun _ => 0) 0 Pp
          ltac:(intros i j _ _ _; lra) ltac:(intros; lra) HT) as (_ & _ & _ & N & L). lra.
      * intros g G Hg HG. destruct (truncate_opt probs tail off l' right (h g) G Pp
          (Hm g Hg) ltac:(intros; apply HG) HT) as (B1 & B2 & _ & _ & EM).
        rewrite Ecp in B1, B2. unfold psum. cbn [pmf_body infinity_mass]. rewrite Er. auto.
Qed.
