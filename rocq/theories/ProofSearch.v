(** inverse_monotone_function. *)
From Verif Require Import Base XReal Exn TypesEvent ModelBuilder ModelAccountant ModelSearch SpecSearch.
Local Arguments Rltb : simpl never.
Local Arguments Rleb : simpl never.
Local Arguments Reqb : simpl never.

Section Inv.
  Context (func : xr -> res xr) (value : xr) (inc : bool).
  Notation chk := (check value inc).

  (** where the two ends come from *)
  Definition low_from (l x : R) : Prop := x = l \/ exists v, func (Fin x) = Ok v /\ chk v = true.
  Definition up_from (up : xr) (x : R) : Prop := Fin x = up \/ exists v, func (Fin x) = Ok v /\ chk v = false.

  Lemma search_loop_ok fuel disc t : forall l u r (Pl Pu : R -> Prop),
    search_loop func value inc fuel disc (Fin t) (Fin l) (Fin u) = Ok r ->
    l <= u -> Pl l -> Pu u ->
    (disc = true -> is_int l /\ is_int u /\ t = 1) ->
    (forall m v, func (Fin m) = Ok v -> chk v = true -> Pl m) ->
    (forall m v, func (Fin m) = Ok v -> chk v = false -> Pu m) ->
    0 <= t ->
    exists l' u', r = (Fin l', Fin u') /\ l <= l' /\ l' <= u' /\ u' <= u /\ u' - l' <= t /\ Pl l' /\ Pu u' /\
      (disc = true -> is_int l' /\ is_int u').
  Proof.
    induction fuel as [|fuel IH]; intros l u r Pl Pu H LU HL HU HD H1 H2 Ht; [discriminate|].
    cbn [search_loop] in H. cbn [xsub xadd xneg xltb] in H.
    destruct (Rltb_spec t (u + - l)) as [G|G].
    - assert (M : exists m, (if disc then xhalf_floor (Fin (u + l)) else xdiv (Fin (u + l)) (Fin 2)) = Fin m /\ l <= m <= u /\ (disc = true -> is_int m)).
      { destruct disc.
        - cbn [xhalf_floor]. eexists. split; [reflexivity|]. split; [|intros _; eexists; reflexivity].
          destruct (HD eq_refl) as ((zl & ->) & (zu & ->) & ->). pose proof (Rfloor_spec ((IZR zu + IZR zl) / 2)) as F.
          assert (L : (zl + 1 < zu)%Z) by (apply lt_IZR; rewrite plus_IZR; lra).
          assert (Lo : (zl <= Rfloor ((IZR zu + IZR zl) / 2))%Z) by (apply Rfloor_le_iff; apply IZR_lt in L; rewrite plus_IZR in L; lra).
          apply IZR_le in Lo. split; [assumption|]. apply IZR_lt in L. rewrite plus_IZR in L. lra.
        - cbn [xdiv]. rewrite Reqb_false by lra. eexists. split; [reflexivity|]. split; [lra | discriminate]. }
      destruct M as (m & Em & Rm & Im). cbn [xadd] in H. rewrite Em in H. clear Em.
      destruct (func (Fin m)) as [v|] eqn:Fm; [|discriminate]. cbn [bind] in H.
      destruct (chk v) eqn:C.
      + destruct (IH m u r Pl Pu H) as (l' & u' & A1 & A2 & A3 & A4 & A5 & A6 & A7 & A8); auto; try lra.
        * eauto.
        * intros D. destruct (HD D) as (_ & ? & ?). repeat split; auto.
        * exists l', u'. repeat split; auto; try lra; apply A8; assumption.
      + destruct (IH l m r Pl Pu H) as (l' & u' & A1 & A2 & A3 & A4 & A5 & A6 & A7 & A8); auto; try lra.
        * eauto.
        * intros D. destruct (HD D) as (? & _ & ?). repeat split; auto.
        * exists l', u'. repeat split; auto; try lra; apply A8; assumption.
    - injection H as <-. exists l, u. repeat split; auto; try lra; apply HD; assumption.
  Qed.

  Lemma guess_loop_ok up l0 : forall fuel l g r,
    guess_loop func value inc fuel up (Fin l) (Fin g) = Ok r ->
    0 < g -> l0 <= l -> l <= g -> low_from l0 l -> xleb (Fin l) up = true ->
    exists l' g', r = (Fin l', Fin g') /\ l0 <= l' /\ l' <= g' /\ 0 < g' /\ low_from l0 l' /\ xleb (Fin l') up = true /\
      (xltb (Fin g') up = true -> exists v, func (Fin g') = Ok v /\ chk v = false) /\
      (is_int l /\ is_int g -> is_int l' /\ is_int g').
  Proof.
    induction fuel as [|fuel IH]; intros l g r H Hg L0 LG HL LU; [discriminate|]. cbn [guess_loop] in H.
    destruct (xltb (Fin g) up) eqn:G.
    - destruct (func (Fin g)) as [v|] eqn:Fg; [|discriminate]. cbn [bind] in H. destruct (chk v) eqn:C.
      + destruct (IH g (2 * g) r H) as (l' & g' & A1 & A2 & A3 & A4 & A5 & A6 & A7 & A8); try lra.
        * right. eauto.
        * destruct up; cbn in *; try discriminate; try reflexivity. destruct (Rltb_spec g r0); [|discriminate]. apply Rleb_true. lra.
        * exists l', g'. repeat split; auto; apply A8; (split; [apply H0|]); destruct H0 as [_ [z ->]]; exists (2 * z)%Z; rewrite mult_IZR; reflexivity.
      + injection H as <-. exists l, g. do 6 (split; [assumption || reflexivity|]). split; [intros _; eauto | intros X; exact X].
    - injection H as <-. exists l, g. do 6 (split; [assumption || reflexivity|]). split; [intros; congruence | intros X; exact X].
  Qed.

  Lemma inverse_ends fuel l up g t disc r : search_ok l up g t disc ->
    inverse_monotone_function func value inc fuel (params_of l up g t disc) = Ok r ->
    let x0 := if inc then Fin l else up in
    (r = None /\ x0 <> PInf /\ exists v, func x0 = Ok v /\ xltb value v = true) \/
    ((x0 <> PInf -> exists v, func x0 = Ok v /\ xltb value v = false) /\
     exists l' u', r = Some (Fin (if inc then l' else u')) /\ l <= l' /\ l' <= u' /\ xleb (Fin u') up = true /\
       u' - l' <= tol_of t disc /\ low_from l l' /\ up_from up u' /\ (disc = true -> is_int l' /\ is_int u')).
  Proof.
    intros (Ht & Hup & Hg & Hd) H. cbv zeta. unfold inverse_monotone_function in H. cbn [params_of sp_lower sp_upper sp_guess sp_tol sp_discrete] in H.
    apply bind_Ok in H. destruct H as (bad & Hb & H).
    set (x0 := if inc then Fin l else up).
    assert (B : (x0 = PInf /\ bad = false) \/ (x0 <> PInf /\ exists v, func x0 = Ok v /\ bad = xltb value v)).
    { unfold x0. clear H. destruct inc.
      - cbn [xeqb] in Hb. apply bind_Ok in Hb. destruct Hb as (v & Fv & [= <-]). right. split; [discriminate | eauto].
      - destruct (xeqb up PInf) eqn:E.
        + destruct up; try discriminate. injection Hb as <-. left. auto.
        + apply bind_Ok in Hb. destruct Hb as (v & Fv & [= <-]). right. split; [intros ->; discriminate | eauto]. }
    destruct bad.
    - injection H as <-. left. destruct B as [[_ B]|(N & v & Fv & B)]; [discriminate|]. eauto.
    - right. split.
      { intros N. destruct B as [[B _]|(_ & v & Fv & B)]; [contradiction|]. eauto. }
      apply bind_Ok in H. destruct H as (lu & Hlu & H). apply bind_Ok in H. destruct H as (r' & Hs & [= <-]).
      assert (LU : exists l1 u1, lu = (Fin l1, Fin u1) /\ l <= l1 /\ l1 <= u1 /\ xleb (Fin u1) up = true /\ low_from l l1 /\ up_from up u1 /\
                   (disc = true -> is_int l1 /\ is_int u1)).
      { destruct g as [g|]; cbn [option_map] in Hlu.
        - apply bind_Ok in Hlu. destruct Hlu as (lg & HG & [= <-]). destruct Hg as [Hg Lg].
          assert (LU : xleb (Fin l) up = true) by (destruct up; cbn; try contradiction; try reflexivity; apply Rleb_true; assumption).
          destruct (guess_loop_ok up l fuel l g lg HG Hg ltac:(lra) Lg (or_introl eq_refl) LU) as (l1 & g1 & -> & A1 & A2 & A3 & A4 & A5 & A6 & A7).
          cbn [fst snd]. unfold xmin. destruct (xltb (Fin g1) up) eqn:G.
          + exists l1, g1. split; [reflexivity|]. split; [assumption|]. split; [assumption|]. split; [|split; [assumption|split]].
            * destruct up; cbn in *; try discriminate; try reflexivity. destruct (Rltb_spec g1 r); [|discriminate]. apply Rleb_true. lra.
            * right. apply A6. reflexivity.
            * intros D. destruct (Hd D) as (I1 & _ & I3). apply A7. split; [assumption | apply I3; reflexivity].
          + destruct up as [u| | |]; try contradiction; [|discriminate].
            cbn in G. destruct (Rltb_spec g1 u); [discriminate|]. cbn in A5. destruct (Rleb_spec l1 u); [|discriminate].
            exists l1, u. split; [reflexivity|]. repeat split; auto; try (cbn; apply Rleb_true; lra); try (left; reflexivity).
            * destruct (Hd H) as (I1 & _ & I3). apply A7. split; [assumption | apply I3; reflexivity].
            * destruct (Hd H) as (_ & I2 & _). apply I2. reflexivity.
        - injection Hlu as <-. destruct up as [u| | |]; try contradiction.
          exists l, u. split; [reflexivity|]. repeat split; auto; try lra; try (cbn; apply Rleb_true; lra); try (left; reflexivity).
          + destruct (Hd H) as (I1 & _ & _). assumption.
          + destruct (Hd H) as (_ & I2 & _). apply I2. reflexivity. }
      destruct LU as (l1 & u1 & -> & A1 & A2 & A3 & A4 & A5 & A6). cbn [fst snd] in Hs.
      replace (if disc then Fin 1 else Fin t) with (Fin (tol_of t disc)) in Hs by (unfold tol_of; destruct disc; reflexivity).
      destruct (search_loop_ok fuel disc (tol_of t disc) l1 u1 r' (low_from l) (up_from up) Hs A2 A4 A5) as (l' & u' & -> & B1 & B2 & B3 & B4 & B5 & B6 & B7).
      + intros D. destruct (A6 D) as [I1 I2]. repeat split; auto. unfold tol_of. rewrite D. reflexivity.
      + intros m v Fm C. right. eauto.
      + intros m v Fm C. right. eauto.
      + unfold tol_of. destruct disc; lra.
      + exists l', u'. cbn [fst snd]. split; [destruct inc; reflexivity|]. repeat split; auto; try lra; try (apply B7; assumption).
        destruct up as [u| | |]; cbn in *; try contradiction; try reflexivity. destruct (Rleb_spec u1 u); [|discriminate]. apply Rleb_true. lra.
  Qed.
End Inv.

Lemma xlt_le_trans a b c : xltb a b = true -> xleb b c = true -> xltb a c = true.
Proof.
  destruct a, b, c; cbn; try discriminate; try reflexivity.
  destruct (Rltb_spec r r0), (Rleb_spec r0 r1); try discriminate. intros _ _. apply Rltb_true. lra.
Qed.
Lemma in_range_le l u x : in_range l (Fin u) x <-> l <= x <= u.
Proof. unfold in_range. cbn. destruct (Rleb_spec x u); split; intros [? ?]; split; try lra; try reflexivity; discriminate. Qed.

Lemma inverse_decreasing func value fuel l up g t disc r : search_ok l up g t disc ->
  inverse_monotone_function func value false fuel (params_of l up g t disc) = Ok r ->
  (r = None -> non_increasing func -> forall x, in_range l up x -> ~ meets func value x) /\
  (forall x, r = Some x -> exists x', x = Fin x' /\ in_range l up x' /\ meets func value x' /\ (disc = true -> is_int x') /\
     (non_increasing func -> forall y, in_range l up y -> meets func value y -> x' <= y + tol_of t disc) /\
     (non_increasing func -> disc = true -> ~ meets func value l ->
        forall y, is_int y -> in_range l up y -> meets func value y -> x' <= y)).
Proof.
  intros OK H. destruct (inverse_ends _ _ _ _ _ _ _ _ _ _ OK H) as [(-> & N & v & Fv & B)|(C & l' & u' & -> & A1 & A2 & A3 & A4 & A5 & A6 & A7)]; cbn iota in *.
  - split; [|discriminate]. intros _ M x Rx (w & Fw & W). destruct OK as (_ & Hup & _). destruct up as [u| | |]; try contradiction; try congruence.
    apply in_range_le in Rx. rewrite (xlt_le_trans value v w B) in W; [discriminate|]. eapply M; [|exact Fw|exact Fv]. lra.
  - split; [discriminate|]. intros x [= <-]. exists u'. split; [reflexivity|].
    assert (Mu : meets func value u').
    { destruct A6 as [E|(v & Fv & Cv)].
      - rewrite <- E in C. destruct (C ltac:(discriminate)) as (v & Fv & Cv). exists v. auto.
      - exists v. auto. }
    assert (K : non_increasing func -> forall y, in_range l up y -> meets func value y -> l' <= y /\ (l' = y -> l' = l)).
    { intros M y Ry (w & Fw & W). destruct A5 as [->|(v & Fv & Cv)]; [split; [apply Ry | reflexivity]|]. cbn [check] in Cv.
      destruct (Rle_dec y l') as [Q|Q].
      - exfalso. rewrite (xlt_le_trans value v w Cv) in W; [discriminate|]. eapply M; [exact Q | exact Fw | exact Fv].
      - split; [lra | intros; lra]. }
    split; [split; [lra | exact A3]|]. split; [exact Mu|]. split; [intros D; apply A7, D|]. split.
    + intros M y Ry My. destruct (K M y Ry My). lra.
    + intros M D Nl y [zy ->] Ry My. destruct (K M _ Ry My) as [K1 K2]. destruct (A7 D) as [[zl El] [zu Eu]].
      unfold tol_of in A4. rewrite D in A4. subst l' u'.
      assert (zl <> zy). { intros ->. apply Nl. rewrite <- (K2 eq_refl). exact My. }
      apply le_IZR in K1. rewrite <- minus_IZR in A4. apply le_IZR in A4. apply IZR_le. lia.
Qed.

Lemma inverse_increasing func value fuel l up g t disc r : search_ok l up g t disc -> value <> NaN ->
  inverse_monotone_function func value true fuel (params_of l up g t disc) = Ok r ->
  (r = None -> non_decreasing func -> forall x, in_range l up x -> ~ meets func value x) /\
  (forall x, r = Some x -> exists x', x = Fin x' /\ in_range l up x' /\ meets func value x' /\ (disc = true -> is_int x') /\
     (non_decreasing func -> forall y, in_range l up y -> meets func value y -> y <= x' + tol_of t disc)).
Proof.
  intros OK NV H. destruct (inverse_ends _ _ _ _ _ _ _ _ _ _ OK H) as [(-> & N & v & Fv & B)|(C & l' & u' & -> & A1 & A2 & A3 & A4 & A5 & A6 & A7)]; cbn iota in *.
  - split; [|discriminate]. intros _ M x Rx (w & Fw & W).
    rewrite (xlt_le_trans value v w B) in W; [discriminate|]. eapply M; [|exact Fv|exact Fw]. apply Rx.
  - split; [discriminate|]. intros x [= <-]. exists l'. split; [reflexivity|].
    assert (Ml : meets func value l').
    { destruct A5 as [->|(v & Fv & Cv)].
      - destruct (C ltac:(discriminate)) as (v & Fv & Cv). exists v. auto.
      - exists v. split; [assumption|]. cbn [check] in Cv. destruct v, value; cbn in *; try discriminate; try reflexivity.
        destruct (Rleb_spec r r0); [|discriminate]. apply Rltb_false. assumption. }
    split; [|split; [exact Ml|]].
    + split; [assumption|]. destruct up as [u| | |]; cbn in *; try discriminate; try reflexivity.
      destruct (Rleb_spec u' u); [|discriminate]. apply Rleb_true. lra.
    + split; [intros D; apply A7, D|]. intros M y Ry (w & Fw & W).
      destruct A6 as [E|(v & Fv & Cv)].
      * rewrite <- E in Ry. apply in_range_le in Ry. lra.
      * cbn [check] in Cv. destruct (Rle_dec u' y) as [Q|Q]; [|lra].
        assert (V : xltb value v = true).
        { pose proof (M u' u' v v ltac:(lra) Fv Fv) as Vv. destruct v, value; cbn in *; try discriminate; try reflexivity; try congruence.
          destruct (Rleb_spec r r0); [discriminate|]. apply Rltb_true. lra. }
        rewrite (xlt_le_trans value v w V) in W; [discriminate|]. eapply M; eassumption.
Qed.

(** Termination. *)
Lemma half_int l u : is_int l -> is_int u -> 1 < u - l -> forall n, u - l <= 2 ^ S n ->
  exists m, xhalf_floor (xadd (Fin u) (Fin l)) = Fin m /\ is_int m /\ l <= m <= u /\ m - l <= 2 ^ n /\ u - m <= 2 ^ n.
Proof.
  intros [zl ->] [zu ->] H n Hn. eexists. split; [reflexivity|]. split; [eexists; reflexivity|].
  pose proof (Rfloor_spec ((IZR zu + IZR zl) / 2)) as F. set (m := Rfloor _) in *. clearbody m.
  assert (P : exists p, (2 ^ n)%R = IZR p) by (exists (2 ^ Z.of_nat n)%Z; rewrite pow_IZR; reflexivity). destruct P as [p P].
  cbn [pow] in Hn. rewrite P in *.
  assert (E1 : (2 * m <= zu + zl)%Z) by (apply le_IZR; rewrite mult_IZR, plus_IZR; lra).
  assert (E2 : (zu + zl < 2 * m + 2)%Z) by (apply lt_IZR; rewrite !plus_IZR, mult_IZR; lra).
  assert (E3 : (zu - zl <= 2 * p)%Z) by (apply le_IZR; rewrite minus_IZR, mult_IZR; lra).
  assert (E4 : (1 < zu - zl)%Z) by (apply lt_IZR; rewrite minus_IZR; lra).
  repeat split; try (rewrite <- minus_IZR); apply IZR_le; lia.
Qed.

Lemma search_loop_total func value inc disc t : 0 < t -> (disc = true -> t = 1) -> forall n l u,
  (forall x, l <= x <= u -> exists v, func (Fin x) = Ok v) ->
  u - l <= t * 2 ^ n -> l <= u -> (disc = true -> is_int l /\ is_int u) ->
  forall fuel, (n < fuel)%nat -> exists r, search_loop func value inc fuel disc (Fin t) (Fin l) (Fin u) = Ok r.
Proof.
  intros Ht Hd. induction n as [|n IH]; intros l u HF HS LU HI fuel Hf; (destruct fuel as [|fuel]; [lia|]); cbn [search_loop xsub xadd xneg xltb].
  - cbn [pow] in HS. rewrite Rltb_false by lra. eexists; reflexivity.
  - destruct (Rltb_spec t (u + - l)) as [G|G]; [|eexists; reflexivity].
    assert (M : exists m, (if disc then xhalf_floor (Fin (u + l)) else xdiv (Fin (u + l)) (Fin 2)) = Fin m /\ l <= m <= u /\
                m - l <= t * 2 ^ n /\ u - m <= t * 2 ^ n /\ (disc = true -> is_int m)).
    { destruct disc.
      - destruct (HI eq_refl) as [I1 I2]. specialize (Hd eq_refl). subst t.
        destruct (half_int l u I1 I2 ltac:(lra) n ltac:(lra)) as (m & Em & Im & R1 & R2 & R3). exists m. split; [exact Em|].
        repeat split; auto; lra.
      - cbn [xdiv]. rewrite Reqb_false by lra. eexists. split; [reflexivity|]. cbn [pow] in HS. repeat split; try lra; discriminate. }
    destruct M as (m & Em & Rm & S1 & S2 & Im). rewrite Em. destruct (HF m Rm) as [v Fv]. rewrite Fv. cbn [bind].
    destruct (check value inc v); apply IH; try lia; try lra; try (intros x Hx; apply HF; lra); intros D; (split; [| ]); auto; apply HI; assumption.
Qed.

Lemma guess_loop_total func value inc up : forall n l g,
  (forall x, g <= x -> xltb (Fin x) up = true -> exists v, func (Fin x) = Ok v) ->
  0 < g -> (forall x, g * 2 ^ n <= x -> xltb (Fin x) up = true -> exists v, func (Fin x) = Ok v /\ check value inc v = false) ->
  forall fuel, (n < fuel)%nat -> exists r, guess_loop func value inc fuel up (Fin l) (Fin g) = Ok r.
Proof.
  induction n as [|n IH]; intros l g HF Hg HE fuel Hf; (destruct fuel as [|fuel]; [lia|]); cbn [guess_loop].
  - destruct (xltb (Fin g) up) eqn:G; [|eexists; reflexivity].
    destruct (HE g ltac:(cbn; lra) G) as (v & Fv & Cv). rewrite Fv. cbn [bind]. rewrite Cv. eexists; reflexivity.
  - destruct (xltb (Fin g) up) eqn:G; [|eexists; reflexivity].
    destruct (HF g ltac:(lra) G) as (v & Fv). rewrite Fv. cbn [bind]. destruct (check value inc v); [|eexists; reflexivity].
    cbn [xmul]. apply IH; try lra; try lia.
    + intros x Hx. apply HF. lra.
    + intros x Hx. apply HE. cbn [pow]. lra.
Qed.

Lemma pow2_above x : exists n, x <= 2 ^ n.
Proof.
  destruct (archimed x) as [A _]. exists (Z.to_nat (up x)).
  assert (H : forall k : nat, INR k <= 2 ^ k).
  { induction k as [|k IH]; [cbn; lra|]. rewrite S_INR. cbn [pow].
    assert (1 <= 2 ^ k) by (apply pow_R1_Rle; lra). lra. }
  destruct (Z_le_gt_dec 0 (up x)) as [P|P].
  - specialize (H (Z.to_nat (up x))). rewrite INR_IZR_INZ, Z2Nat.id in H by assumption. lra.
  - assert (IZR (up x) <= 0) by (apply IZR_le; lia). replace (Z.to_nat (up x)) with 0%nat by lia. cbn. lra.
Qed.

Lemma inverse_terminates func value inc l up g t disc : search_ok l up g t disc -> 0 < t ->
  (forall x, in_range l up x -> exists v, func (Fin x) = Ok v) ->
  (up = PInf -> exists X, forall x, X <= x -> exists v, func (Fin x) = Ok v /\ check value inc v = false) ->
  exists N, forall fuel, (N < fuel)%nat -> exists r, inverse_monotone_function func value inc fuel (params_of l up g t disc) = Ok r.
Proof.
  intros OK Ht HF HX. pose proof OK as (_ & Hup & Hg & Hd).
  assert (LU : xleb (Fin l) up = true) by (destruct up; cbn; try contradiction; try reflexivity; apply Rleb_true; assumption).
  (* the guess loop *)
  assert (G1 : exists N1, forall fuel, (N1 < fuel)%nat -> match g with None => True | Some g => exists r, guess_loop func value inc fuel up (Fin l) (Fin g) = Ok r end).
  { destruct g as [g|]; [|exists O; auto]. destruct Hg as [Hg Lg].
    assert (X : exists X, forall x, X <= x -> xltb (Fin x) up = true -> exists v, func (Fin x) = Ok v /\ check value inc v = false).
    { destruct up as [u| | |]; try contradiction.
      - exists u. intros x Hx. cbn. rewrite Rltb_false by assumption. discriminate.
      - destruct (HX eq_refl) as [X HX']. exists X. auto. }
    destruct X as [X HX']. destruct (pow2_above (X / g)) as [n Hn]. exists n. intros fuel Hf. apply (guess_loop_total _ _ _ _ n); auto.
    - intros x Hx Lx. apply HF. split; [lra|]. destruct up; cbn in *; try discriminate; try reflexivity.
      destruct (Rltb_spec x r); [|discriminate]. apply Rleb_true. lra.
    - intros x Hx. apply HX'. eapply Rle_trans; [|exact Hx]. apply (Rmult_le_reg_r (/ g)); [apply Rinv_0_lt_compat; assumption|].
      replace (g * 2 ^ n * / g) with (2 ^ n) by (field; lra). exact Hn. }
  destruct G1 as [N1 G1].
  (* a bound on the interval that is left, whatever fuel the guess loop got *)
  assert (G2 : exists U, forall fuel lu, (match option_map Fin g with None => Ok (Fin l, up) | Some g => let? lg := guess_loop func value inc fuel up (Fin l) g in Ok (fst lg, xmin up (snd lg)) end) = Ok lu ->
      exists l1 u1, lu = (Fin l1, Fin u1) /\ l <= l1 /\ l1 <= u1 /\ u1 <= U /\ xleb (Fin u1) up = true /\ (disc = true -> is_int l1 /\ is_int u1)).
  { destruct g as [g|]; cbn [option_map].
    - destruct Hg as [Hg Lg].
      assert (B : exists U, g <= U /\ forall fuel l0 g0 r, guess_loop func value inc fuel up (Fin l0) (Fin g0) = Ok r -> 0 < g0 -> g0 <= U -> 
                  match up with Fin u => U = Rmax g u | _ => True end ->
                  exists l1 g1, r = (Fin l1, Fin g1) /\ (xltb (Fin g1) up = true -> g1 <= U)).
      { destruct up as [u| | |]; try contradiction.
        - exists (Rmax g u). split; [apply Rmax_l|]. induction fuel as [|fuel IH]; intros l0 g0 r H G0 GU E; [discriminate|]. cbn [guess_loop] in H.
          destruct (xltb (Fin g0) (Fin u)) eqn:L.
          + destruct (func (Fin g0)) as [v|]; [|discriminate]. cbn [bind] in H. destruct (check value inc v).
            * cbn [xmul] in H. destruct (Rle_dec (2 * g0) (Rmax g u)) as [Q|Q]; [eapply IH; [exact H | lra | exact Q | reflexivity]|].
              destruct fuel as [|fuel]; [discriminate|]. cbn [guess_loop] in H. replace (xltb (Fin (2 * g0)) (Fin u)) with false in H.
              2:{ symmetry. cbn. apply Rltb_false. pose proof (Rmax_r g u). lra. }
              injection H as <-. exists g0, (2 * g0). split; [reflexivity|]. cbn. intros X. destruct (Rltb_spec (2 * g0) u); [|discriminate]. pose proof (Rmax_r g u). lra.
            * injection H as <-. exists l0, g0. split; [reflexivity | intros _; assumption].
          + injection H as <-. exists l0, g0. split; [reflexivity | intros _; assumption].
        - destruct (HX eq_refl) as [X HX']. exists (Rmax g (2 * X)). split; [apply Rmax_l|].
          induction fuel as [|fuel IH]; intros l0 g0 r H G0 GU E; [discriminate|]. cbn [guess_loop xltb] in H.
          destruct (func (Fin g0)) as [v|] eqn:Fg; [|discriminate]. cbn [bind] in H. destruct (check value inc v) eqn:C.
          * cbn [xmul] in H. destruct (Rle_dec (2 * g0) (Rmax g (2 * X))) as [Q|Q]; [eapply IH; [exact H | lra | exact Q | exact Logic.I]|].
            exfalso. destruct (HX' g0) as (v' & Fv & Cv); [pose proof (Rmax_r g (2 * X)); lra|]. rewrite Fg in Fv. injection Fv as <-. congruence.
          * injection H as <-. exists l0, g0. split; [reflexivity | intros _; assumption]. }
      destruct B as (U & GU & B). destruct up as [u| | |]; try contradiction.
      + exists u. intros fuel lu H. apply bind_Ok in H. destruct H as (lg & HG & [= <-]).
        destruct (guess_loop_ok func value inc (Fin u) l fuel l g lg HG Hg ltac:(lra) Lg (or_introl eq_refl) LU) as (l1 & g1 & -> & A1 & A2 & A3 & A4 & A5 & A6 & A7).
        cbn [fst snd]. cbn in A5. destruct (Rleb_spec l1 u); [|discriminate]. unfold xmin. cbn. destruct (Rltb_spec g1 u).
        * exists l1, g1. split; [reflexivity|]. repeat split; auto; try lra; try (apply Rleb_true; lra); destruct (Hd H) as (I1 & I2 & I3); apply A7; auto.
        * exists l1, u. split; [reflexivity|]. repeat split; auto; try lra; try (apply Rleb_true; lra); destruct (Hd H) as (I1 & I2 & I3); [apply A7; auto | apply I2; reflexivity].
      + exists U. intros fuel lu H. apply bind_Ok in H. destruct H as (lg & HG & [= <-]).
        destruct (B fuel l g lg HG Hg GU Logic.I) as (l2 & g2 & E2 & B2).
        destruct (guess_loop_ok func value inc PInf l fuel l g lg HG Hg ltac:(lra) Lg (or_introl eq_refl) LU) as (l1 & g1 & -> & A1 & A2 & A3 & A4 & A5 & A6 & A7).
        injection E2 as <- <-. cbn [fst snd xmin xltb]. exists l1, g1. split; [reflexivity|]. repeat split; auto; destruct (Hd H) as (I1 & I2 & I3); apply A7; auto.
    - destruct up as [u| | |]; try contradiction. exists u. intros fuel lu [= <-]. exists l, u. split; [reflexivity|].
      repeat split; auto; try lra; try (cbn; apply Rleb_true; lra); destruct (Hd H) as (I1 & I2 & I3); auto. }
  destruct G2 as [U G2].
  destruct (pow2_above ((U - l) / tol_of t disc)) as [n Hn]. assert (Htl : 0 < tol_of t disc) by (unfold tol_of; destruct disc; lra).
  exists (N1 + n)%nat. intros fuel Hf. unfold inverse_monotone_function. cbn [params_of sp_lower sp_upper sp_guess sp_tol sp_discrete].
  assert (F0 : exists bad, (if inc then if xeqb (Fin l) MInf then Ok false else let? v := func (Fin l) in Ok (xltb value v)
                            else if xeqb up PInf then Ok false else let? v := func up in Ok (xltb value v)) = Ok bad).
  { destruct inc.
    - cbn [xeqb]. destruct (HF l) as [v Fv]; [split; [lra | assumption]|]. rewrite Fv. cbn. eexists; reflexivity.
    - destruct up as [u| | |]; try contradiction; cbn [xeqb]; [|eexists; reflexivity].
      destruct (HF u) as [v Fv]; [apply in_range_le; split; lra|]. rewrite Fv. cbn. eexists; reflexivity. }
  destruct F0 as [bad ->]. cbn [bind]. destruct bad; [eexists; reflexivity|].
  assert (F1 : exists lu, (match option_map Fin g with None => Ok (Fin l, up) | Some g => let? lg := guess_loop func value inc fuel up (Fin l) g in Ok (fst lg, xmin up (snd lg)) end) = Ok lu).
  { destruct g as [g|]; cbn [option_map]; [|eexists; reflexivity]. destruct (G1 fuel ltac:(lia)) as [r ->]. cbn. eexists; reflexivity. }
  destruct F1 as [lu F1]. rewrite F1. cbn [bind]. destruct (G2 _ _ F1) as (l1 & u1 & -> & A1 & A2 & A3 & A4 & A5). cbn [fst snd].
  replace (if disc then Fin 1 else Fin t) with (Fin (tol_of t disc)) by (unfold tol_of; destruct disc; reflexivity).
  destruct (search_loop_total func value inc disc (tol_of t disc) Htl) with (n := n) (l := l1) (u := u1) (fuel := fuel) as [r ->]; try lia; auto.
  - intros D. unfold tol_of. rewrite D. reflexivity.
  - intros x Hx. apply HF. split; [lra|]. destruct up as [u| | |]; cbn in *; try discriminate; try reflexivity.
    destruct (Rleb_spec u1 u); [|discriminate]. apply Rleb_true. lra.
  - apply (Rmult_le_compat_r (tol_of t disc)) in Hn; [|lra]. unfold Rdiv in Hn. rewrite Rmult_assoc, Rinv_l, Rmult_1_r in Hn by lra. lra.
  - cbn. eexists; reflexivity.
Qed.
