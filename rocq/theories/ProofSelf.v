(** Self composition and its tail bounds. *)
From Verif Require Import Base XReal Exn PyDict ModelCommon ModelPmf ModelPld SpecDP SpecPmf SpecPld
  ProofDP ProofDict ProofPmf ProofCompose ProofCompose2 ProofQuery ProofPld.

Lemma lsum_zr lo l g :
  lsum lo l g = rsum (fun z => nth (Z.to_nat (z - lo)) l 0 * g z) (zrange lo (length l)).
Proof.
  rewrite lsum_seq, zrange_map, rsum_map. apply rsum_ext. intros i _. do 2 f_equal. lia.
Qed.

Lemma lsum_swap a l1 b l2 (f : Z -> Z -> R) :
  lsum a l1 (fun i => lsum b l2 (fun j => f i j)) = lsum b l2 (fun j => lsum a l1 (fun i => f i j)).
Proof.
  rewrite !lsum_zr.
  rewrite (rsum_ext _ (fun z => rsum (fun y => nth (Z.to_nat (z - a)) l1 0 *
     (nth (Z.to_nat (y - b)) l2 0 * f z y)) (zrange b (length l2)))).
  2:{ intros z _. rewrite lsum_zr, <- rsum_scal. reflexivity. }
  rewrite rsum_swap. apply rsum_ext. intros y _. rewrite lsum_zr, <- rsum_scal.
  apply rsum_ext. intros; lra.
Qed.

Lemma lsum_0plus l1 l2 g :
  lsum 0 (convolve l1 l2) g = lsum 0 l1 (fun i => lsum 0 l2 (fun j => g (i + j)%Z)).
Proof. exact (convolve_lsum 0 0 l1 l2 g). Qed.

Lemma conv_pow_nonneg l n : (forall x, In x l -> 0 <= x) -> forall x, In x (conv_pow l n) -> 0 <= x.
Proof.
  intros H. induction n as [|n IH]; cbn [conv_pow].
  - intros x [<-|[]]. lra.
  - apply convolve_nonneg; assumption.
Qed.

Lemma conv_pow_length l n : l <> [] -> length (conv_pow l n) = ((length l - 1) * n + 1)%nat.
Proof.
  intros H. induction n as [|n IH]; cbn [conv_pow]; [rewrite Nat.mul_0_r; reflexivity|].
  assert (length l <> 0)%nat by (destruct l; [congruence | simpl; lia]).
  rewrite convolve_length; [rewrite IH; nia | assumption|].
  intros E. rewrite E in IH. simpl in IH. lia.
Qed.

(** the distribution of a sum of n independent draws *)
Lemma conv_pow_tuples l n g :
  lsum 0 (conv_pow l n) g =
  rsum (fun t => rprod (fun z => nth (Z.to_nat z) l 0) t * g (zsum t))
       (tuples (zrange 0 (length l)) n).
Proof.
  revert g. induction n as [|n IH]; intros g; cbn [conv_pow tuples].
  - cbn. lra.
  - rewrite lsum_0plus, rsum_flat_map, lsum_zr. apply rsum_ext. intros z _.
    rewrite Z.sub_0_r, IH, rsum_map, <- rsum_scal. apply rsum_ext. intros t _.
    cbn [rprod zsum fold_right]. fold (zsum t). fold (rprod (fun z0 => nth (Z.to_nat z0) l 0) t). lra.
Qed.

Lemma mgf_pow l n t :
  lsum 0 (conv_pow l n) (fun m => exp (IZR m * t)) = mgf l t ^ n.
Proof.
  induction n as [|n IH]; cbn [conv_pow pow].
  - cbn. rewrite Rmult_0_l, exp_0. lra.
  - rewrite lsum_0plus.
    rewrite (lsum_ext 0 l _ (fun i => mgf l t ^ n * exp (IZR i * t))).
    + rewrite lsum_scal, Rmult_comm. f_equal. unfold mgf. rewrite lsum_seq.
      apply rsum_ext. intros i _. rewrite Z.add_0_l, INR_IZR_INZ. reflexivity.
    + intros i _. rewrite <- IH, Rmult_comm, <- lsum_scal. apply lsum_ext. intros j _.
      rewrite <- exp_plus, plus_IZR. f_equal. lra.
Qed.

Definition bz (b : bool) : R := if b then 1 else 0.

Lemma mgf_nonneg_pow l t n : 0 < mgf l t -> 0 < mgf l t ^ n.
Proof. apply pow_lt. Qed.

(** Markov's inequality *)
Lemma markov l n t c (S : Z -> bool) :
  (forall x, In x l -> 0 <= x) -> 0 <= c ->
  (forall m, S m = true -> 1 <= c * exp (IZR m * t)) ->
  lsum 0 (conv_pow l n) (fun m => bz (S m)) <= c * mgf l t ^ n.
Proof.
  intros Hl Hc HS. rewrite <- mgf_pow, <- lsum_scal. apply lsum_le.
  - apply conv_pow_nonneg. assumption.
  - intros m _. unfold bz. destruct (S m) eqn:E; [auto|].
    apply Rmult_le_pos; [assumption | apply exp_pos_nonneg].
Qed.

Definition cb_ok (l : list R) (n : Z) (tail : R) (lu : Z * Z) : Prop :=
  (0 <= fst lu)%Z /\ (snd lu <= (Z.of_nat (length l) - 1) * n)%Z /\
  lsum 0 (conv_pow l (Z.to_nat n)) (fun m => bz (m <? fst lu)%Z) <= tail / 2 /\
  lsum 0 (conv_pow l (Z.to_nat n)) (fun m => bz (snd lu <? m)%Z) <= tail / 2.

Lemma chernoff_half M tail n :
  0 < M -> 0 < tail -> 0 <= tail / 2 * exp (- (IZR (Z.of_nat n) * ln M)) /\
  tail / 2 * exp (- (IZR (Z.of_nat n) * ln M)) * M ^ n = tail / 2.
Proof.
  intros HM Ht. split.
  - apply Rmult_le_pos; [lra | apply exp_pos_nonneg].
  - rewrite exp_Ropp, <- INR_IZR_INZ, exp_nat_mul, exp_ln by assumption.
    field. apply pow_nonzero. lra.
Qed.

Lemma chernoff_step_ok l n tail b order b' :
  (forall x, In x l -> 0 <= x) -> (0 <= n)%Z -> 0 < tail ->
  cb_ok l n tail b -> chernoff_step l n tail (Ok b) order = Ok b' -> cb_ok l n tail b'.
Proof.
  intros Hl Hn Ht. destruct b as [lo up]. intros (H1 & H2 & H3 & H4).
  unfold chernoff_step. cbn [bind]. destruct (Rleb_spec (mgf l order) 0) as [|HM]; [discriminate|].
  apply Rnot_le_lt in HM. intros E. injection E as <-.
  set (M := mgf l order) in *. set (nn := Z.to_nat n) in *.
  destruct (chernoff_half M tail nn HM Ht) as [Hc Hcm].
  set (c := tail / 2 * exp (- (IZR (Z.of_nat nn) * ln M))) in *.
  assert (En : Z.of_nat nn = n) by (unfold nn; lia).
  set (bound := (IZR n * ln M + ln (2 / tail)) / order).
  assert (Key : forall m, IZR n * ln M + ln (2 / tail) <= IZR m * order -> 1 <= c * exp (IZR m * order)).
  { intros m Hm. apply exp_le in Hm. rewrite exp_plus in Hm.
    assert (0 < 2 / tail) by (apply Rdiv_lt_0_compat; lra).
    rewrite (exp_ln (2 / tail)) in Hm by assumption. unfold c. rewrite En, exp_Ropp.
    pose proof (exp_pos (IZR n * ln M)).
    apply Rmult_le_compat_l with (r := tail / 2 * / exp (IZR n * ln M)) in Hm.
    - eapply Rle_trans; [|exact Hm]. right. field. split; lra.
    - apply Rmult_le_pos; [lra|]. left. apply Rinv_0_lt_compat. assumption. }
  cbn [fst snd] in *. repeat split; cbn [fst snd].
  - destruct (Rltb order 0); lia.
  - destruct (Rltb 0 order); lia.
  - destruct (Rltb_spec order 0) as [Ho|_]; [|assumption].
    destruct (Z.max_spec lo (Rfloor bound)) as [[_ ->]|[_ ->]]; [|assumption].
    rewrite <- Hcm. apply markov; [assumption..|]. intros m Hm. apply Key.
    apply Z.ltb_lt in Hm. assert (Hm' : (m + 1 <= Rfloor bound)%Z) by lia.
    apply Rfloor_le_iff in Hm'. rewrite plus_IZR in Hm'.
    assert (Eb : bound * order = IZR n * ln M + ln (2 / tail)) by (unfold bound; field; lra).
    rewrite <- Eb. nra.
  - destruct (Rltb_spec 0 order) as [Ho|_]; [|assumption].
    destruct (Z.min_spec up (Rceil bound)) as [[_ ->]|[_ ->]]; [assumption|].
    rewrite <- Hcm. apply markov; [assumption..|]. intros m Hm. apply Key.
    apply Z.ltb_lt in Hm. assert (Hm' : (Rceil bound <= m)%Z) by lia.
    apply Rceil_le_iff in Hm'.
    assert (Eb : bound * order = IZR n * ln M + ln (2 / tail)) by (unfold bound; field; lra).
    rewrite <- Eb. nra.
Qed.

Lemma lsum_zero_fun lo l g : (forall z, (lo <= z < lo + Z.of_nat (length l))%Z -> g z = 0) ->
  lsum lo l g = 0.
Proof.
  intros H. rewrite (lsum_ext lo l g (fun _ => 0 * 0)).
  - rewrite lsum_scal. lra.
  - intros z Hz. rewrite H by assumption. lra.
Qed.

Lemma conv_pow_range l n : (0 <= n)%Z ->
  forall m, (0 <= m < 0 + Z.of_nat (length (conv_pow l (Z.to_nat n))))%Z ->
  (m <= (Z.of_nat (length l) - 1) * n)%Z.
Proof.
  intros Hn m Hm. destruct l as [|x l].
  - destruct (Z.to_nat n) eqn:E; [cbn in *; assert (n = 0)%Z by lia; subst; lia|].
    cbn [conv_pow convolve length] in Hm. lia.
  - rewrite conv_pow_length in Hm by discriminate. cbn [length] in *. nia.
Qed.

Lemma bounds_ok l n tail orders b :
  (forall x, In x l -> 0 <= x) -> (0 <= n)%Z -> 0 <= tail ->
  compute_self_convolve_bounds l n tail orders = Ok b -> cb_ok l n tail b.
Proof.
  intros Hl Hn Ht. unfold compute_self_convolve_bounds.
  assert (Init : cb_ok l n tail (0, (Z.of_nat (length l) - 1) * n)%Z).
  { repeat split; cbn [fst snd]; try lia.
    - rewrite lsum_zero_fun; [lra|]. intros z Hz. unfold bz.
      destruct (Z.ltb_spec z 0); [lia | reflexivity].
    - rewrite lsum_zero_fun; [lra|]. intros z Hz.
      pose proof (conv_pow_range l n Hn z Hz). unfold bz.
      destruct (Z.ltb_spec ((Z.of_nat (length l) - 1) * n) z); [lia | reflexivity]. }
  destruct (Reqb_spec tail 0).
  - intros E. injection E as <-. assumption.
  - destruct (Rltb_spec tail 0); [discriminate|].
    generalize (match orders with Some o => o | None => default_orders (length l) end).
    intros os. revert Init. generalize (0, (Z.of_nat (length l) - 1) * n)%Z.
    induction os as [|o os IH]; intros b0 H0; cbn [fold_left].
    + intros E. injection E as <-. assumption.
    + destruct (chernoff_step l n tail (Ok b0) o) as [b1|x] eqn:E.
      * intros H. apply (IH b1); [|assumption]. eapply chernoff_step_ok; try eassumption. lra.
      * intros H. exfalso. clear -H. induction os as [|o os IH]; [discriminate | auto].
Qed.

(** ** the circular convolution and its window *)
Lemma nth_map_seq (f : nat -> R) n i : (i < n)%nat -> nth i (map f (seq 0 n)) 0 = f i.
Proof.
  intros H. rewrite (nth_indep _ 0 (f 0%nat)) by (rewrite map_length, seq_length; assumption).
  rewrite map_nth, seq_nth by assumption. reflexivity.
Qed.

Lemma self_convolve_ok fast_len l n tail lower out :
  (forall k, (k <= fast_len k)%nat) ->
  (forall x, In x l -> 0 <= x) -> (0 <= n)%Z -> 0 <= tail ->
  self_convolve fast_len l n tail = Ok (lower, out) ->
  (forall x, In x out -> 0 <= x) /\
  forall base g G, (forall z, 0 <= g z <= G) ->
    let X := lsum 0 (conv_pow l (Z.to_nat n)) (fun m => g (base + m)%Z) in
    let Y := lsum (base + lower) out g in
    Y <= X + tail * G /\ X <= Y + tail * G.
Proof.
  intros Hf Hl Hn Ht H. unfold self_convolve in H. destruct l as [|x0 l0]; [discriminate|].
  set (l := x0 :: l0) in *.
  destruct (compute_self_convolve_bounds l n tail None) as [[lo up]|] eqn:EB; [|discriminate].
  cbn [bind] in H. apply bounds_ok in EB; [|assumption..].
  destruct EB as (B1 & B2 & B3 & B4). cbn [fst snd] in *.
  set (P := conv_pow l (Z.to_nat n)) in *.
  set (olen := (up - lo + 1)%Z) in *.
  set (L := fast_len (Z.to_nat (Z.max olen (Z.of_nat (length l))))) in *.
  assert (HL : (Z.to_nat (Z.max olen (Z.of_nat (length l))) <= L)%nat) by apply Hf.
  assert (HL1 : (1 <= L)%nat) by (unfold l in HL; cbn [length] in HL; lia).
  injection H as <- <-.
  (* the output is the first [cnt] entries of the rolled array *)
  set (roll := roll_back (circular P L) lo).
  assert (Lc : length (circular P L) = L) by (unfold circular; rewrite map_length, seq_length; reflexivity).
  assert (Er : roll = map (fun i => rsum (fun m => if (m mod L =? Z.to_nat ((Z.of_nat i + lo) mod Z.of_nat L))%nat
                                      then nth m P 0 else 0) (seq 0 (length P))) (seq 0 L)).
  { unfold roll, roll_back. rewrite Lc. apply map_ext. intros i. unfold circular.
    rewrite nth_map_seq; [reflexivity|].
    pose proof (Z.mod_pos_bound (Z.of_nat i + lo) (Z.of_nat L)). lia. }
  assert (Lr : length roll = L) by (rewrite Er, map_length, seq_length; reflexivity).
  assert (HP0 : forall m, 0 <= nth m P 0).
  { intros m. destruct (nth_in_or_default m P 0) as [Hi|E]; [|rewrite E; lra].
    revert Hi. apply conv_pow_nonneg. assumption. }
  assert (exists cnt, slice_to roll olen = firstn cnt roll /\ (cnt <= L)%nat /\
            (0 <= olen -> cnt = Z.to_nat olen)%Z) as (cnt & Es & Hc & Hcn).
  { unfold slice_to. destruct (Z.leb_spec 0 olen).
    - exists (Z.to_nat olen). split; [reflexivity|]. split; [lia | auto].
    - exists (Z.to_nat (Z.of_nat (length roll) + olen)). split; [reflexivity|]. split; [lia|lia]. }
  set (Fi := fun i => rsum (fun m => if (m mod L =? Z.to_nat ((Z.of_nat i + lo) mod Z.of_nat L))%nat
                                      then nth m P 0 else 0) (seq 0 (length P))) in *.
  assert (Eo : slice_to roll olen = map Fi (seq 0 cnt)).
  { rewrite Es, Er, firstn_map. f_equal.
    replace L with (cnt + (L - cnt))%nat by lia. rewrite seq_app.
    rewrite firstn_app, seq_length, Nat.sub_diag. cbn [firstn]. rewrite app_nil_r.
    rewrite <- (seq_length cnt 0) at 1. apply firstn_all. }
  fold roll. rewrite Eo. split.
  { intros x Hx. apply in_map_iff in Hx. destruct Hx as (i & <- & _). unfold Fi.
    apply rsum_nonneg. intros m _. destruct (m mod L =? _)%nat; [apply HP0 | lra]. }
  intros base g G Hg. cbv zeta.
  set (X := lsum 0 P (fun m => g (base + m)%Z)). set (Y := lsum (base + lo) (map Fi (seq 0 cnt)) g).
  (* swap the sums *)
  set (idx := fun m : nat => Z.to_nat ((Z.of_nat m - lo) mod Z.of_nat L)).
  set (W := fun m : nat => if (idx m <? cnt)%nat then g (base + lo + Z.of_nat (idx m))%Z else 0).
  assert (EY : Y = rsum (fun m => nth m P 0 * W m) (seq 0 (length P))).
  { unfold Y. rewrite lsum_map_seq. unfold Fi.
    rewrite (rsum_ext _ (fun i => rsum (fun m =>
       (if (m mod L =? Z.to_nat ((Z.of_nat i + lo) mod Z.of_nat L))%nat then nth m P 0 else 0)
       * g (base + lo + Z.of_nat i)%Z) (seq 0 (length P)))) by (intros; rewrite <- rsum_scal_r; reflexivity).
    rewrite rsum_swap. apply rsum_ext. intros m _. unfold W.
    assert (Hcond : forall i, (i < L)%nat ->
       (m mod L =? Z.to_nat ((Z.of_nat i + lo) mod Z.of_nat L))%nat = (idx m =? i)%nat).
    { intros i Hi. unfold idx.
      assert (E1 : Z.of_nat (m mod L) = (Z.of_nat m mod Z.of_nat L)%Z) by apply Nat2Z.inj_mod.
      pose proof (Z.mod_pos_bound (Z.of_nat i + lo) (Z.of_nat L) ltac:(lia)) as A1.
      pose proof (Z.mod_pos_bound (Z.of_nat m - lo) (Z.of_nat L) ltac:(lia)) as A2.
      destruct (Nat.eqb_spec (m mod L) (Z.to_nat ((Z.of_nat i + lo) mod Z.of_nat L))) as [E|NE];
      destruct (Nat.eqb_spec (Z.to_nat ((Z.of_nat m - lo) mod Z.of_nat L)) i) as [E'|NE']; auto; exfalso.
      - apply NE'. assert (E2 : (Z.of_nat m mod Z.of_nat L = (Z.of_nat i + lo) mod Z.of_nat L)%Z) by lia.
        assert (E3 : ((Z.of_nat m - lo) mod Z.of_nat L = Z.of_nat i)%Z); [|lia].
        rewrite Zminus_mod, E2, <- Zminus_mod. replace (Z.of_nat i + lo - lo)%Z with (Z.of_nat i) by lia.
        apply Z.mod_small. lia.
      - apply NE. assert (E2 : ((Z.of_nat m - lo) mod Z.of_nat L = Z.of_nat i)%Z) by lia.
        assert (E3 : ((Z.of_nat i + lo) mod Z.of_nat L = Z.of_nat m mod Z.of_nat L)%Z); [|lia].
        rewrite <- E2. rewrite Zplus_mod, Zmod_mod, <- Zplus_mod. f_equal. lia. }
    rewrite (rsum_ext _ (fun i => if (idx m =? i)%nat then nth m P 0 * g (base + lo + Z.of_nat i)%Z else 0)).
    2:{ intros i Hi. apply in_seq in Hi. rewrite Hcond by lia. destruct (idx m =? i)%nat; lra. }
    clear -Hc. destruct (Nat.ltb_spec (idx m) cnt) as [Hlt|Hge].
    - assert (H : forall c, (idx m < c)%nat -> rsum (fun i => if (idx m =? i)%nat
          then nth m P 0 * g (base + lo + Z.of_nat i)%Z else 0) (seq 0 c) =
          nth m P 0 * g (base + lo + Z.of_nat (idx m))%Z); [|apply H; assumption].
      intros c. induction c as [|c IH]; [lia|]. intros Hn. rewrite rsum_seq_S.
      destruct (Nat.eqb_spec (idx m) c) as [E|NE].
      + rewrite rsum_zero; [rewrite <- E; lra|]. intros i Hi. apply in_seq in Hi.
        destruct (Nat.eqb_spec (idx m) i); [lia | reflexivity].
      + rewrite IH by lia. lra.
    - rewrite rsum_zero; [lra|]. intros i Hi. apply in_seq in Hi.
      destruct (Nat.eqb_spec (idx m) i); [lia | reflexivity]. }
  assert (EX : X = rsum (fun m => nth m P 0 * g (base + Z.of_nat m)%Z) (seq 0 (length P))).
  { unfold X. fold P. rewrite lsum_seq. apply rsum_ext. intros; do 2 f_equal. }
  (* difference only outside the window *)
  set (Out := fun m : nat => bz (Z.of_nat m <? lo)%Z + bz (up <? Z.of_nat m)%Z).
  assert (HOut : rsum (fun m => nth m P 0 * Out m) (seq 0 (length P)) <= tail).
  { unfold Out. rewrite (rsum_ext _ (fun m => nth m P 0 * bz (Z.of_nat m <? lo)%Z +
                                       nth m P 0 * bz (up <? Z.of_nat m)%Z)) by (intros; lra).
    rewrite rsum_plus. rewrite lsum_seq in B3, B4.
    rewrite (rsum_ext _ (fun i => nth i P 0 * bz (0 + Z.of_nat i <? lo)%Z)) by (intros; do 3 f_equal; lia).
    rewrite (rsum_ext (fun m => nth m P 0 * bz (up <? Z.of_nat m)%Z)
              (fun i => nth i P 0 * bz (up <? 0 + Z.of_nat i)%Z)) by (intros; do 3 f_equal; lia).
    lra. }
  assert (HG : 0 <= G) by (specialize (Hg 0%Z); lra).
  assert (HW : forall m, Out m = 0 -> W m = g (base + Z.of_nat m)%Z).
  { intros m Hm. unfold Out, bz in Hm. destruct (Z.ltb_spec (Z.of_nat m) lo); [destruct (up <? Z.of_nat m)%Z; lra|].
    destruct (Z.ltb_spec up (Z.of_nat m)); [lra|].
    assert (Hi : ((Z.of_nat m - lo) mod Z.of_nat L = Z.of_nat m - lo)%Z) by (apply Z.mod_small; lia).
    unfold W, idx. rewrite Hi. rewrite Hcn by lia.
    destruct (Nat.ltb_spec (Z.to_nat (Z.of_nat m - lo)) (Z.to_nat olen)); [|lia].
    f_equal. lia. }
  assert (HOO : forall m, Out m = 0 \/ 1 <= Out m).
  { intros m. unfold Out, bz. destruct (Z.of_nat m <? lo)%Z, (up <? Z.of_nat m)%Z; lra. }
  assert (HW2 : forall m, 0 <= W m <= G).
  { intros m. unfold W. destruct (idx m <? cnt)%nat; [apply Hg | lra]. }
  assert (Diff : forall a b : nat -> R, (forall m, a m <= b m + Out m * G) ->
     rsum (fun m => nth m P 0 * a m) (seq 0 (length P)) <=
     rsum (fun m => nth m P 0 * b m) (seq 0 (length P)) + tail * G).
  { intros a b Hab. apply Rle_trans with (rsum (fun m => nth m P 0 * b m + G * (nth m P 0 * Out m)) (seq 0 (length P))).
    - apply rsum_le. intros m _. specialize (Hab m). specialize (HP0 m). nra.
    - rewrite rsum_plus, rsum_scal. nra. }
  rewrite EY, EX. split; apply Diff; intros m; destruct (HOO m) as [Z|Z].
  - rewrite HW by assumption. rewrite Z. lra.
  - specialize (HW2 m). specialize (Hg (base + Z.of_nat m)%Z). nra.
  - rewrite HW by assumption. rewrite Z. lra.
  - specialize (HW2 m). specialize (Hg (base + Z.of_nat m)%Z). nra.
Qed.

(** ** n-fold composition *)
Fixpoint pown (p : pmf) (n : nat) (g : Z -> R) : R :=
  match n with
  | O => g 0%Z
  | S n => psum p (fun i => pown p n (fun j => g (i + j)%Z))
  end.

Lemma pown_ext p n g h : (forall z, g z = h z) -> pown p n g = pown p n h.
Proof.
  revert g h. induction n as [|n IH]; intros g h H; cbn [pown]; [apply H|].
  apply psum_ext. intros i. apply IH. intros; apply H.
Qed.

Lemma pown_snoc p n g : pown p n (fun i => psum p (fun j => g (i + j)%Z)) = pown p (S n) g.
Proof.
  revert g. induction n as [|n IH]; intros g.
  - cbn. apply psum_ext. intros. f_equal. lia.
  - cbn [pown]. apply psum_ext. intros k.
    transitivity (pown p n (fun i => psum p (fun j => g (k + (i + j))%Z))).
    + apply pown_ext. intros i. apply psum_ext. intros j. f_equal. lia.
    + exact (IH (fun z => g (k + z)%Z)).
Qed.

Lemma pown_same p q n g : (forall h, psum q h = psum p h) -> pown q n g = pown p n g.
Proof.
  intros H. revert g. induction n as [|n IH]; intros g; cbn [pown]; [reflexivity|].
  rewrite H. apply psum_ext. intros i. apply IH.
Qed.

Lemma pown_dense p lo l n g : pmf_body p = Dense lo l ->
  pown p n g = lsum 0 (conv_pow l n) (fun m => g (lo * Z.of_nat n + m)%Z).
Proof.
  intros E. revert g. induction n as [|n IH]; intros g.
  - cbn. rewrite Z.mul_0_r. cbn. lra.
  - cbn [pown conv_pow]. unfold psum. rewrite E. rewrite lsum_0plus.
    replace lo with (0 + lo)%Z at 1 by lia. rewrite lsum_shift.
    apply lsum_ext. intros i _. rewrite IH. apply lsum_ext. intros j _. f_equal. lia.
Qed.

Record power_ok (p : pmf) (n : nat) (r : pmf) : Prop := {
  pw_wf : wf r;
  pw_inf : 1 - infinity_mass r = (1 - infinity_mass p) ^ n;
  pw_disc : discretization r = discretization p;
  pw_pess : pessimistic_estimate r = pessimistic_estimate p;
  pw_sum : forall g, psum r g = pown p n g }.

Lemma power_one p : wf p -> power_ok p 1 p.
Proof.
  intros W. constructor; auto; [simpl; lra|]. intros g. cbn. apply psum_ext. intros. f_equal. lia.
Qed.

Lemma power_inf_le p n r : infinity_mass p <= 1 -> power_ok p n r -> infinity_mass r <= 1.
Proof.
  intros Ip H. pose proof (pw_inf _ _ _ H). assert (0 <= (1 - infinity_mass p) ^ n) by (apply pow_le; lra). lra.
Qed.

Lemma power_step p n r r' : wf p -> infinity_mass p <= 1 -> power_ok p n r ->
  compose_ok r p 0 r' -> power_ok p (S n) r'.
Proof.
  intros W Ip H C. destruct (co_exact _ _ _ _ C eq_refl) as [X I]. constructor.
  - exact (compose_wf r p 0 r' (pw_wf _ _ _ H) W (or_intror Ip) C).
  - rewrite I. cbn [pow]. rewrite <- (pw_inf _ _ _ H). unfold combine_inf. lra.
  - rewrite (co_rdisc _ _ _ _ C). apply (pw_disc _ _ _ H).
  - rewrite (co_rpess _ _ _ _ C). apply (pw_pess _ _ _ H).
  - intros g. rewrite X. unfold conv2. rewrite (pw_sum _ _ _ H). apply pown_snoc.
Qed.

Lemma copies_power p n r : wf p -> infinity_mass p <= 1 -> copies p n r -> power_ok p n r.
Proof.
  intros W Ip. induction 1 as [|n r r' H IH HC]; [apply power_one; assumption|].
  apply (power_step p n r r' W Ip IH). apply compose_pmfs_ok; auto. apply (pw_wf _ _ _ IH).
Qed.

(** what self_compose returns, relative to the exact n-fold composition *)
Record self_ok (p : pmf) (n : nat) (tail : R) (r : pmf) : Prop := {
  so_wf : wf r;
  so_disc : discretization r = discretization p;
  so_pess : pessimistic_estimate r = pessimistic_estimate p;
  so_exact : tail = 0 -> power_ok p n r;
  so_up : pessimistic_estimate p = true -> forall g G, mono g -> (forall z, 0 <= g z <= G) ->
     pown p n g + (1 - (1 - infinity_mass p) ^ n) * G <= ptest r g G <=
     pown p n g + (1 - (1 - infinity_mass p) ^ n) * G + 2 * tail * G }.

Lemma dense_self_ok fast_len p lo l n tail r :
  (forall k, (k <= fast_len k)%nat) -> wf p -> pmf_body p = Dense lo l -> 0 <= tail ->
  dense_self_compose fast_len p lo l n tail = Ok r ->
  self_ok p (Z.to_nat n) tail r.
Proof.
  intros Hf W E Ht H. unfold dense_self_compose in H.
  destruct (Z.leb_spec n 0) as [|Hn]; [discriminate|].
  destruct (self_convolve fast_len l n tail) as [[lower out]|] eqn:EC; [|discriminate].
  cbn [bind] in H. destruct (Rleb_spec 1 (infinity_mass p)) as [|Hi]; [discriminate|].
  apply Rnot_le_lt in Hi. injection H as <-.
  assert (HN := wf_dense_nonneg p lo l W E).
  destruct (self_convolve_ok fast_len l n tail lower out Hf HN ltac:(lia) Ht EC) as [Ho HX].
  assert (EI : exp (IZR n * ln (1 + - infinity_mass p)) = (1 - infinity_mass p) ^ Z.to_nat n).
  { replace (IZR n) with (INR (Z.to_nat n)) by (rewrite INR_IZR_INZ; f_equal; lia).
    rewrite exp_nat_mul, exp_ln by lra. reflexivity. }
  assert (HI0 : 0 <= infinity_mass p) by apply W.
  assert (HP : 0 <= (1 - infinity_mass p) ^ Z.to_nat n <= 1).
  { split; [apply pow_le; lra|]. apply Rle_trans with (1 ^ Z.to_nat n); [apply pow_incr; lra | rewrite pow1; lra]. }
  assert (Wr : wf (mkPmf (discretization p) (tail - (exp (IZR n * ln (1 + - infinity_mass p)) - 1))
                (pessimistic_estimate p) (Dense (lo * n + lower) out))).
  { apply wf_dense; [apply W | rewrite EI; lra | assumption]. }
  assert (HB : forall g G, (forall z, 0 <= g z <= G) ->
    lsum (lo * n + lower) out g <= pown p (Z.to_nat n) g + tail * G /\
    pown p (Z.to_nat n) g <= lsum (lo * n + lower) out g + tail * G).
  { intros g G Hg. specialize (HX (lo * n)%Z g G Hg). cbv zeta in HX.
    rewrite (pown_dense p lo l _ g E). replace (Z.of_nat (Z.to_nat n)) with n by lia. exact HX. }
  constructor; try reflexivity; try exact Wr.
  - intros ->. constructor; try reflexivity; try exact Wr.
    + cbn [infinity_mass]. rewrite EI. lra.
    + intros g. unfold psum at 1. cbn [pmf_body].
      (* equality on indicators is enough *)
      assert (K : forall k, mass (mkPmf (discretization p) (0 - (exp (IZR n * ln (1 + - infinity_mass p)) - 1))
                (pessimistic_estimate p) (Dense (lo * n + lower) out)) k = pown p (Z.to_nat n) (ind k)).
      { intros k. rewrite mass_psum by exact Wr. unfold psum. cbn [pmf_body].
        destruct (HB (ind k) 1); [|lra]. intros z. unfold ind. destruct (z =? k)%Z; lra. }
      assert (Lin : forall (n0 : nat) (h1 h2 : Z -> R), pown p n0 (fun z => h1 z + h2 z) = pown p n0 h1 + pown p n0 h2).
      { clear. intros n0. induction n0 as [|n0 IH]; intros h1 h2; cbn [pown]; [reflexivity|].
        rewrite <- psum_plus. apply psum_ext. intros i. apply (IH (fun z => h1 (i + z)%Z) (fun z => h2 (i + z)%Z)). }
      assert (Sc : forall (n0 : nat) c (h : Z -> R), pown p n0 (fun z => c * h z) = c * pown p n0 h).
      { clear. intros n0. induction n0 as [|n0 IH]; intros c h; cbn [pown]; [reflexivity|].
        rewrite <- psum_scal. apply psum_ext. intros i. apply (IH c (fun z => h (i + z)%Z)). }
      rewrite (pown_dense p lo l _ g E).
      set (N := length (conv_pow l (Z.to_nat n))).
      set (ks := zrange (lo * Z.of_nat (Z.to_nat n)) N).
      (* g restricted to the support, as a combination of indicators *)
      transitivity (rsum (fun k => g k * pown p (Z.to_nat n) (ind k)) ks).
      * transitivity (psum (mkPmf (discretization p) (0 - (exp (IZR n * ln (1 + - infinity_mass p)) - 1))
                (pessimistic_estimate p) (Dense (lo * n + lower) out)) g); [reflexivity|].
        rewrite (psum_covers _ ks); [|exact Wr|].
        -- apply rsum_ext. intros k _. rewrite K. lra.
        -- split; [apply zrange_NoDup|]. intros k Hk. rewrite K in Hk.
           apply zrange_In. destruct (Z_le_dec (lo * Z.of_nat (Z.to_nat n)) k) as [H1|H1];
             [destruct (Z_lt_dec k (lo * Z.of_nat (Z.to_nat n) + Z.of_nat N)) as [H2|H2]; [auto|]|];
             exfalso; apply Hk; rewrite (pown_dense p lo l _ _ E); apply lsum_zero_fun;
             intros z Hz; unfold ind; fold N in Hz;
             match goal with |- context [(?a =? ?b)%Z] => destruct (Z.eqb_spec a b); [lia | reflexivity] end.
      * rewrite (rsum_ext _ (fun k => lsum 0 (conv_pow l (Z.to_nat n))
              (fun m => g k * ind k (lo * Z.of_nat (Z.to_nat n) + m)%Z))).
        2:{ intros k _. rewrite (pown_dense p lo l _ _ E), lsum_scal. reflexivity. }
        rewrite (rsum_ext _ (fun k => rsum (fun i => nth i (conv_pow l (Z.to_nat n)) 0 *
             (g k * ind k (lo * Z.of_nat (Z.to_nat n) + (0 + Z.of_nat i))%Z)) (seq 0 N)))
          by (intros; apply lsum_seq).
        rewrite rsum_swap, lsum_seq. apply rsum_ext. intros i Hii. rewrite rsum_scal. f_equal.
        rewrite (rsum_ext _ (fun k => ind k (lo * Z.of_nat (Z.to_nat n) + (0 + Z.of_nat i))%Z * g k))
          by (intros; apply Rmult_comm).
        rewrite rsum_ind by apply zrange_NoDup.
        destruct (in_dec Z.eq_dec (lo * Z.of_nat (Z.to_nat n) + (0 + Z.of_nat i))%Z ks) as [_|NI]; [reflexivity|].
        exfalso. apply NI. apply in_seq in Hii. apply zrange_In. lia.
  - intros _ g G Hm Hg. destruct (HB g G Hg) as [B1 B2].
    unfold ptest, psum. cbn [pmf_body infinity_mass]. rewrite EI.
    assert (0 <= G) by (specialize (Hg 0%Z); lra). nra.
Qed.

Lemma self_ok_same p q n tail r : (forall g, psum q g = psum p g) ->
  infinity_mass q = infinity_mass p -> discretization q = discretization p ->
  pessimistic_estimate q = pessimistic_estimate p -> self_ok q n tail r -> self_ok p n tail r.
Proof.
  intros HX HI HD HP S. constructor.
  - apply (so_wf _ _ _ _ S).
  - rewrite (so_disc _ _ _ _ S); assumption.
  - rewrite (so_pess _ _ _ _ S); assumption.
  - intros Z. pose proof (so_exact _ _ _ _ S Z) as Q. constructor.
    + apply (pw_wf _ _ _ Q).
    + rewrite (pw_inf _ _ _ Q), HI. reflexivity.
    + rewrite (pw_disc _ _ _ Q); assumption.
    + rewrite (pw_pess _ _ _ Q); assumption.
    + intros g. rewrite (pw_sum _ _ _ Q). apply pown_same; assumption.
  - intros HPp g G Hm Hg. rewrite <- HP in HPp. pose proof (so_up _ _ _ _ S HPp g G Hm Hg) as U.
    rewrite (pown_same p q n g HX), HI in U. exact U.
Qed.

Lemma sparse_loop_ok p tail r : wf p -> infinity_mass p <= 1 -> 0 <= tail ->
  forall todo n0 result, power_ok p n0 result -> todo <> 0%nat ->
  sparse_self_compose_loop p result todo tail = Ok r ->
  exists prev, power_ok p (n0 + todo - 1) prev /\ compose_ok prev p tail r.
Proof.
  intros W Ip Ht. induction todo as [|todo IH]; intros n0 result H HT HL; [congruence|].
  cbn [sparse_self_compose_loop] in HL. destruct todo as [|todo].
  - exists result. replace (n0 + 1 - 1)%nat with n0 by lia. split; [assumption|].
    apply pmf_compose_ok; auto. apply (pw_wf _ _ _ H).
  - destruct (pmf_compose result p 0) as [r1|] eqn:E; [|discriminate]. cbn [bind] in HL.
    assert (H1 : power_ok p (S n0) r1).
    { apply (power_step p n0 result r1 W Ip H). apply pmf_compose_ok; auto. apply (pw_wf _ _ _ H). }
    destruct (IH (S n0) r1 H1 ltac:(discriminate) HL) as (prev & P1 & P2).
    exists prev. split; [|assumption]. replace (n0 + S (S todo) - 1)%nat with (S n0 + S todo - 1)%nat by lia.
    assumption.
Qed.

Lemma sparse_last_ok p n prev tail r : wf p -> infinity_mass p <= 1 -> 0 <= tail ->
  power_ok p n prev -> compose_ok prev p tail r -> self_ok p (S n) tail r.
Proof.
  intros W Ip Ht HP C. constructor.
  - exact (compose_wf prev p tail r (pw_wf _ _ _ HP) W (or_intror Ip) C).
  - rewrite (co_rdisc _ _ _ _ C). apply (pw_disc _ _ _ HP).
  - rewrite (co_rpess _ _ _ _ C). apply (pw_pess _ _ _ HP).
  - intros ->. exact (power_step p n prev r W Ip HP C).
  - intros HPs g G Hm Hg. rewrite <- (pw_pess _ _ _ HP) in HPs.
    destruct (co_pes _ _ _ _ C HPs) as [_ M]. destruct (M g G Hm Hg) as [M1 M2]. specialize (M2 Ht).
    assert (EQ : conv2 prev p g = pown p (S n) g).
    { unfold conv2. rewrite (pw_sum _ _ _ HP). apply pown_snoc. }
    assert (EI : combine_inf (infinity_mass prev) (infinity_mass p) = 1 - (1 - infinity_mass p) ^ S n).
    { cbn [pow]. rewrite <- (pw_inf _ _ _ HP). unfold combine_inf. lra. }
    rewrite EQ, EI in *. assert (0 <= G) by (specialize (Hg 0%Z); lra). nra.
Qed.

Lemma self_compose_ok fast_len p n tail r :
  (forall k, (k <= fast_len k)%nat) -> wf p -> infinity_mass p <= 1 -> 0 <= tail ->
  pmf_self_compose fast_len p n tail = Ok r -> self_ok p (Z.to_nat n) tail r.
Proof.
  intros Hf W Ip Ht H. unfold pmf_self_compose in H.
  destruct (pmf_body p) as [d|lo l] eqn:E; [|eapply dense_self_ok; eassumption].
  destruct (Z.leb_spec n 0); [discriminate|].
  destruct (Z.eqb_spec n 1) as [->|Hn1].
  - injection H as <-. pose proof (power_one p W) as P. constructor; auto.
    intros _ g G Hm Hg. unfold ptest. rewrite (pw_sum _ _ _ P).
    change (Z.to_nat 1) with 1%nat. rewrite pow_1.
    assert (0 <= G) by (specialize (Hg 0%Z); lra). nra.
  - destruct (MAX_PMF_SPARSE_SIZE <? Z.of_nat (length d) ^ n)%Z.
    + destruct (to_dense p) as [q|] eqn:ED; [|discriminate]. cbn [bind] in H.
      destruct (to_dense_ok p q W ED) as (Wq & Xq & Iq & Dq & Pq & lo & l & Bq).
      rewrite Bq in H. apply (self_ok_same p q); auto. eapply dense_self_ok; eassumption.
    + assert (HT : Z.to_nat (n - 1) <> 0%nat) by lia.
      destruct (sparse_loop_ok p tail r W Ip Ht _ 1%nat p (power_one p W) HT H) as (prev & P1 & P2).
      replace (Z.to_nat n) with (S (1 + Z.to_nat (n - 1) - 1)) by lia.
      eapply sparse_last_ok; eassumption.
Qed.

Lemma self_compose_copies fast_len p n tail r r' e :
  (forall k, (k <= fast_len k)%nat) -> wf p -> infinity_mass p <= 1 -> 0 <= tail ->
  pmf_self_compose fast_len p n tail = Ok r -> copies p (Z.to_nat n) r' ->
  (tail = 0 -> same_distribution r r') /\
  (pessimistic_estimate p = true ->
   pmf_delta r' (Fin e) <= pmf_delta r (Fin e) <= pmf_delta r' (Fin e) + 2 * tail).
Proof.
  intros Hf W Ip Ht H C. apply self_compose_ok in H; [|assumption..].
  apply copies_power in C; [|assumption..]. split.
  - intros ->. pose proof (so_exact _ _ _ _ H eq_refl) as Q.
    apply same_by_psum.
    + destruct (pw_wf _ _ _ Q) as (_&_&_&N). exact N.
    + destruct (pw_wf _ _ _ C) as (_&_&_&N). exact N.
    + intros g. rewrite (pw_sum _ _ _ Q), (pw_sum _ _ _ C). reflexivity.
    + pose proof (pw_inf _ _ _ Q). pose proof (pw_inf _ _ _ C). lra.
    + rewrite (pw_disc _ _ _ Q), (pw_disc _ _ _ C). reflexivity.
  - intros HP. rewrite !pmf_delta_psum by (apply (so_wf _ _ _ _ H) || apply (pw_wf _ _ _ C)).
    rewrite (so_disc _ _ _ _ H), (pw_disc _ _ _ C).
    assert (Hm : mono (hgain (discretization p) e)) by (unfold mono; apply hgain_mono; apply W).
    assert (Hb : forall z, 0 <= hgain (discretization p) e z <= 1)
      by (intros; split; [apply hgain_nonneg | apply hgain_le_1]).
    pose proof (so_up _ _ _ _ H HP _ 1 Hm Hb) as U.
    assert (X : ptest r' (hgain (discretization p) e) 1 =
      pown p (Z.to_nat n) (hgain (discretization p) e) + (1 - (1 - infinity_mass p) ^ Z.to_nat n) * 1).
    { unfold ptest. rewrite (pw_sum _ _ _ C). pose proof (pw_inf _ _ _ C). f_equal. lra. }
    rewrite X. lra.
Qed.

(** ** when self composition succeeds *)
Lemma mgf_positive l t : (forall x, In x l -> 0 <= x) -> 0 < lmass l -> 0 < mgf l t.
Proof.
  intros Hl Hs. unfold mgf.
  destruct (Rlt_dec 0 (rsum (fun i => nth i l 0 * exp (INR i * t)) (seq 0 (length l)))); [assumption|].
  exfalso. assert (Z : forall i, In i (seq 0 (length l)) -> nth i l 0 * exp (INR i * t) = 0).
  { apply rsum_pos_ex; [|lra]. intros i _. apply Rmult_le_pos; [|apply exp_pos_nonneg].
    destruct (nth_in_or_default i l 0) as [H|H]; [auto | rewrite H; lra]. }
  assert (lmass l = 0); [|lra].
  apply rsum_zero. intros x Hx. destruct (In_nth l x 0 Hx) as (i & Hi & E).
  specialize (Z i). rewrite E in Z. pose proof (exp_pos (INR i * t)).
  assert (Hz : x * exp (INR i * t) = 0) by (apply Z, in_seq; lia).
  apply Rmult_integral in Hz. destruct Hz; lra.
Qed.

Lemma bounds_total l n tail orders : (forall x, In x l -> 0 <= x) -> 0 < lmass l -> 0 <= tail ->
  exists b, compute_self_convolve_bounds l n tail orders = Ok b.
Proof.
  intros Hl Hs Ht. unfold compute_self_convolve_bounds.
  destruct (Reqb_spec tail 0); [eauto|]. destruct (Rltb_spec tail 0); [lra|].
  generalize (match orders with Some o => o | None => default_orders (length l) end).
  intros os. generalize (0, (Z.of_nat (length l) - 1) * n)%Z.
  induction os as [|o os IH]; intros b0; cbn [fold_left]; [eauto|].
  unfold chernoff_step at 2. cbn [bind]. destruct b0 as [lo up].
  rewrite (Rleb_false (mgf l o) 0) by (apply mgf_positive; assumption). apply IH.
Qed.

Lemma dense_self_total fast_len p lo l n tail : wf p -> pmf_body p = Dense lo l ->
  0 < psum p (fun _ => 1) -> infinity_mass p < 1 -> (1 <= n)%Z -> 0 <= tail ->
  exists r, dense_self_compose fast_len p lo l n tail = Ok r /\
    infinity_mass r = tail + (1 - (1 - infinity_mass p) ^ Z.to_nat n).
Proof.
  intros W E Hs Hi Hn Ht. unfold dense_self_compose. destruct (Z.leb_spec n 0); [lia|].
  assert (HN := wf_dense_nonneg p lo l W E).
  assert (HM : 0 < lmass l). { unfold psum in Hs. rewrite E, lsum_one in Hs. assumption. }
  unfold self_convolve. destruct l as [|x l0] eqn:El; [simpl in HM; lra|].
  destruct (bounds_total (x :: l0) n tail None HN HM Ht) as [[b1 b2] Eb].
  rewrite Eb. cbn [bind]. rewrite (Rleb_false 1) by assumption. eexists. split; [reflexivity|].
  cbn [infinity_mass].
  replace (IZR n) with (INR (Z.to_nat n)) by (rewrite INR_IZR_INZ; f_equal; lia).
  rewrite exp_nat_mul, exp_ln by lra. unfold Rminus. lra.
Qed.

Lemma pown_one p n : pown p n (fun _ => 1) = psum p (fun _ => 1) ^ n.
Proof.
  induction n as [|n IH]; [reflexivity|]. cbn [pown pow]. rewrite (psum_ext p _ (fun _ => 1 * psum p (fun _ => 1) ^ n)) by (intros; rewrite IH; ring).
  unfold psum. destruct (pmf_body p).
  - unfold dsum. rewrite <- rsum_scal_r. apply rsum_ext. intros; ring.
  - rewrite !lsum_const. ring.
Qed.
Lemma pmf_self_total fast_len p n tail : wf p -> pmf_size p <> 0%nat ->
  0 < psum p (fun _ => 1) -> infinity_mass p < 1 -> (1 <= n)%Z -> 0 <= tail ->
  (tail = 0 \/ tail / 2 < psum p (fun _ => 1) ^ Z.to_nat n) ->
  exists r, pmf_self_compose fast_len p n tail = Ok r.
Proof.
  intros W HS Hs Hi Hn Ht HT. unfold pmf_self_compose.
  destruct (pmf_body p) as [d|lo l] eqn:E.
  - destruct (Z.leb_spec n 0); [lia|]. destruct (Z.eqb_spec n 1) as [E1n|E1n]; [eauto|].
    destruct (MAX_PMF_SPARSE_SIZE <? Z.of_nat (length d) ^ n)%Z.
    + destruct (to_dense_total p HS) as [q Eq]. rewrite Eq. cbn [bind].
      destruct (to_dense_ok p q W Eq) as (Wq & Xq & Iq & Dq & Pq & lo & l & Bq). rewrite Bq.
      destruct (dense_self_total fast_len q lo l n tail Wq Bq) as (r & Er & _); try lra; try lia; eauto.
      * rewrite Xq. assumption.
    + assert (Loop : forall todo result n0, (n0 + todo = Z.to_nat n)%nat -> power_ok p n0 result ->
         same_class result p = true -> exists r, sparse_self_compose_loop p result todo tail = Ok r).
      { induction todo as [|todo IH]; intros result n0 EN HR HC; cbn [sparse_self_compose_loop]; [eauto|].
        assert (CT : forall tl, 0 <= tl -> (tl = 0 \/ tl / 2 < psum p (fun _ => 1) ^ S n0) -> exists r1, pmf_compose result p tl = Ok r1).
        { intros tl H0 H1. apply pmf_compose_total; auto; try lra.
          - apply (pw_wf _ _ _ HR).
          - apply (pw_disc _ _ _ HR).
          - apply (pw_pess _ _ _ HR).
          - rewrite (pw_sum _ _ _ HR), pown_one. cbn [pow] in H1. destruct H1 as [H1|H1]; [left; assumption | right; lra]. }
        destruct todo as [|todo]; [apply CT; [assumption|]; replace (S n0) with (Z.to_nat n) by lia; assumption|].
        destruct (CT 0 ltac:(lra) ltac:(auto)) as [r1 E1].
        rewrite E1. cbn [bind]. apply (IH r1 (S n0)).
        - lia.
        - apply (power_step p n0 result r1 W ltac:(lra) HR). apply pmf_compose_ok; auto. apply (pw_wf _ _ _ HR).
        - clear -E1 E HC. unfold pmf_compose in E1. destruct (validate_composable result p); [|discriminate].
          cbn [bind] in E1. unfold same_class in *. rewrite E in *.
          destruct (pmf_body result); [|discriminate].
          rewrite truncate_zero in E1. cbn [bind] in E1. injection E1 as <-. reflexivity. }
      apply (Loop (Z.to_nat (n - 1)) p 1%nat ltac:(lia) (power_one p W)). unfold same_class. rewrite E. reflexivity.
  - destruct (dense_self_total fast_len p lo l n tail W E) as (r & Er & _); try lra; try lia; eauto.
Qed.
