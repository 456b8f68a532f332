(** Divergence of two distributions on the real line whose likelihood ratio is monotone: the
    best events are half lines. *)
From Verif Require Import Base XReal SpecDP SpecMech ProofDP.
Local Arguments Rltb : simpl never.
Local Arguments Rleb : simpl never.
Local Arguments Reqb : simpl never.

(** ** Order on extended reals *)
Lemma xleb_refl x : x <> NaN -> xleb x x = true.
Proof. destruct x; cbn; intros H; try reflexivity; [apply Rleb_true; lra | congruence]. Qed.
Lemma xleb_trans x y z : xleb x y = true -> xleb y z = true -> xleb x z = true.
Proof.
  destruct x, y, z; cbn; try discriminate; try reflexivity.
  destruct (Rleb_spec r r0); [|discriminate]. destruct (Rleb_spec r0 r1); [|discriminate].
  intros _ _. apply Rleb_true. lra.
Qed.
Lemma xleb_total x y : x <> NaN -> y <> NaN -> xleb x y = true \/ xleb y x = true.
Proof.
  destruct x, y; cbn; intros; try congruence; auto.
  destruct (Rle_dec r r0); [left | right]; apply Rleb_true; lra.
Qed.
Lemma xleb_nan x y : xleb x y = true -> x <> NaN /\ y <> NaN.
Proof. destruct x, y; cbn; intros; split; congruence. Qed.
Lemma xleb_neg x y : xleb x y = true -> xleb (xneg y) (xneg x) = true.
Proof.
  destruct x, y; cbn; try discriminate; try reflexivity.
  destruct (Rleb_spec r r0); [|discriminate]. intros _. apply Rleb_true. lra.
Qed.
Lemma xleb_fin a b : xleb (Fin a) (Fin b) = true <-> a <= b.
Proof. cbn. destruct (Rleb_spec a b); split; auto; try discriminate; lra. Qed.

(** ** Cells *)
Lemma cells_from (M : xr -> R) cuts : forall x0,
  rsum (fun c => M (snd c) - M (fst c)) (combine (x0 :: map Fin cuts) (map Fin cuts ++ [PInf])) = M PInf - M x0.
Proof.
  induction cuts as [|c cuts IH]; intros x0.
  - cbn. lra.
  - change (combine (x0 :: map Fin (c :: cuts)) (map Fin (c :: cuts) ++ [PInf]))
      with ((x0, Fin c) :: combine (Fin c :: map Fin cuts) (map Fin cuts ++ [PInf])).
    cbn [rsum fst snd]. rewrite (IH (Fin c)). lra.
Qed.
Lemma cells_telescope M cuts : rsum (fun c => M (snd c) - M (fst c)) (cells cuts) = M PInf - M MInf.
Proof. apply cells_from. Qed.
Lemma cells_ordered cuts : StronglySorted Rlt cuts -> forall c, In c (cells cuts) -> xleb (fst c) (snd c) = true.
Proof.
  assert (G : forall cuts x0, StronglySorted Rlt cuts -> x0 <> NaN -> (forall c, In c cuts -> xleb x0 (Fin c) = true) ->
     xleb x0 PInf = true ->
     forall c, In c (combine (x0 :: map Fin cuts) (map Fin cuts ++ [PInf])) -> xleb (fst c) (snd c) = true).
  { clear. induction cuts as [|a cuts IH]; intros x0 HS HN HL HP c Hc.
    - cbn in Hc. destruct Hc as [<-|[]]. exact HP.
    - cbn [map app combine] in Hc. destruct Hc as [<-|Hc].
      + apply HL. left. reflexivity.
      + inversion HS as [|? ? HS' HF]; subst. apply (IH (Fin a)); auto; [discriminate|].
        intros b Hb. rewrite Forall_forall in HF. apply xleb_fin. left. apply HF, Hb. }
  intros HS c Hc. apply (G cuts MInf HS); auto; discriminate.
Qed.

Lemma pos_max x : pos x = Rmax 0 x.
Proof. unfold pos. reflexivity. Qed.

(** ** Peaks *)
Definition hend (H : R -> R) (lim : R) (x : xr) : R :=
  match x with Fin a => H a | PInf => lim | _ => 0 end.
Definition peaked (H : R -> R) (lim : R) (p : xr) : Prop :=
  p <> NaN /\
  (forall x y, xleb x y = true -> xleb y p = true -> hend H lim x <= hend H lim y) /\
  (forall x y, xleb p x = true -> xleb x y = true -> hend H lim y <= hend H lim x).
(** no set of cells gains more than M *)
Definition gains_at_most (h : xr -> R) (m : R) : Prop :=
  forall cuts, StronglySorted Rlt cuts -> rsum (fun c => pos (h (snd c) - h (fst c))) (cells cuts) <= m.

Lemma gains_by (h M : xr -> R) m :
  (forall x y, xleb x y = true -> pos (h y - h x) <= M y - M x) -> M PInf - M MInf <= m -> gains_at_most h m.
Proof.
  intros HM Hm cuts HS. eapply Rle_trans; [|exact Hm]. rewrite <- (cells_telescope M cuts).
  apply rsum_le. intros c Hc. apply HM, (cells_ordered _ HS _ Hc).
Qed.
Definition cap (p x : xr) : xr := if xleb x p then x else p.
Lemma peaked_pos H lim p : peaked H lim p -> forall x y, xleb x y = true ->
  pos (hend H lim y - hend H lim x) <= hend H lim (cap p y) - hend H lim (cap p x).
Proof.
  intros (N & U & D) x y L. destruct (xleb_nan _ _ L) as [Nx Ny]. unfold cap. rewrite pos_max.
  destruct (xleb y p) eqn:Ey.
  - rewrite (xleb_trans _ _ _ L Ey). specialize (U x y L Ey). rewrite Rmax_right; lra.
  - destruct (xleb_total y p Ny N) as [|Q]; [congruence|].
    destruct (xleb x p) eqn:Ex.
    + specialize (U x p Ex (xleb_refl p N)). specialize (D p y (xleb_refl p N) Q). apply Rmax_lub; lra.
    + destruct (xleb_total x p Nx N) as [|Q']; [congruence|]. specialize (D x y Q' L). apply Rmax_lub; lra.
Qed.
Lemma cap_ends p : p <> NaN -> cap p PInf = p /\ cap p MInf = MInf.
Proof. destruct p; cbn; intros; try congruence; split; reflexivity. Qed.
Lemma peaked_gains H lim p : peaked H lim p -> gains_at_most (hend H lim) (hend H lim p).
Proof.
  intros HP. apply (gains_by _ (fun x => hend H lim (cap p x))).
  - apply peaked_pos, HP.
  - destruct (cap_ends p (proj1 HP)) as [-> ->]. cbn. lra.
Qed.
(** reflected *)
Definition antitone (r : xr -> xr) : Prop :=
  (forall x y, xleb x y = true -> xleb (r y) (r x) = true) /\ r PInf = MInf /\ r MInf = PInf.
Lemma peaked_gains_mirror H lim p (h : xr -> R) c r : peaked H lim p -> antitone r ->
  (forall x, x <> NaN -> h x = c - hend H lim (r x)) -> gains_at_most h (hend H lim p).
Proof.
  intros HP (HR & R1 & R2) Hh. apply (gains_by _ (fun x => - hend H lim (cap p (r x)))).
  - intros x y L. destruct (xleb_nan _ _ L) as [Nx Ny]. rewrite !Hh by assumption.
    pose proof (peaked_pos H lim p HP _ _ (HR _ _ L)) as B.
    replace (c - hend H lim (r y) - (c - hend H lim (r x))) with (hend H lim (r x) - hend H lim (r y)) by lra. lra.
  - rewrite R1, R2. destruct (cap_ends p (proj1 HP)) as [-> ->]. cbn. lra.
Qed.
Lemma peaked_attained H lim p : peaked H lim p -> exists cuts, StronglySorted Rlt cuts /\
  rsum (fun c => pos (hend H lim (snd c) - hend H lim (fst c))) (cells cuts) = hend H lim p.
Proof.
  intros (N & U & D). destruct p as [a| | |]; [| | |congruence].
  - exists [a]. split; [repeat constructor|]. unfold cells. cbn [map app combine rsum fst snd hend].
    pose proof (U MInf (Fin a) eq_refl ltac:(apply xleb_fin; lra)). pose proof (D (Fin a) PInf ltac:(apply xleb_fin; lra) eq_refl). cbn [hend] in *.
    rewrite pos_eq by lra. rewrite pos_0 by lra. lra.
  - exists []. split; [constructor|]. unfold cells. cbn [map app combine rsum fst snd hend].
    pose proof (U MInf PInf eq_refl eq_refl). cbn [hend] in *. rewrite pos_eq by lra. lra.
  - exists []. split; [constructor|]. unfold cells. cbn [map app combine rsum fst snd hend].
    pose proof (D MInf PInf eq_refl eq_refl). cbn [hend] in *. rewrite pos_0 by lra. lra.
Qed.
Lemma peaked_best H lim p : peaked H lim p -> forall x, x <> NaN -> hend H lim x <= hend H lim p.
Proof.
  intros (N & U & D) x Nx. destruct (xleb_total x p Nx N) as [L|L].
  - apply (U x p L), xleb_refl, N.
  - apply (D p x), L. apply xleb_refl, N.
Qed.

(** ** Pairs of distributions *)
Definition gap (P Q : R -> R) (t x : R) : R := P x - t * Q x.
Lemma at_end_gap P Q t x : at_end P x - t * at_end Q x = hend (gap P Q t) (1 - t) x.
Proof. destruct x; cbn; unfold gap; lra. Qed.
Lemma observe_gap P Q cuts eps : hockey_stick (observe P Q cuts) eps =
  rsum (fun c => pos (hend (gap P Q (exp eps)) (1 - exp eps) (snd c) - hend (gap P Q (exp eps)) (1 - exp eps) (fst c))) (cells cuts).
Proof.
  unfold hockey_stick. cbn [outs prP prQ observe]. apply rsum_ext. intros c _.
  rewrite <- !at_end_gap. f_equal. lra.
Qed.
Lemma at_end_mono P : is_cdf P -> forall x y, xleb x y = true -> at_end P x <= at_end P y.
Proof.
  intros (B & M & _) x y L. destruct x as [a| | |], y as [b| | |]; cbn in *; try discriminate; try lra.
  - apply M. revert L. destruct (Rleb_spec a b); [auto | discriminate].
  - apply B.
  - apply B.
Qed.
Lemma observe_valid P Q cuts : is_cdf P -> is_cdf Q -> StronglySorted Rlt cuts -> valid (observe P Q cuts).
Proof.
  intros HP HQ HS. split; [|split].
  - intros c Hc. cbn in *. pose proof (cells_ordered _ HS _ Hc) as L.
    pose proof (at_end_mono P HP _ _ L). pose proof (at_end_mono Q HQ _ _ L). lra.
  - change (rsum (fun c => at_end P (snd c) - at_end P (fst c)) (cells cuts) = 1). rewrite (cells_telescope (at_end P)). cbn. lra.
  - change (rsum (fun c => at_end Q (snd c) - at_end Q (fst c)) (cells cuts) = 1). rewrite (cells_telescope (at_end Q)). cbn. lra.
Qed.
Lemma swap_observe P Q cuts : swap (observe P Q cuts) = observe Q P cuts.
Proof. reflexivity. Qed.

Lemma divergence_peak P Q eps p : peaked (gap P Q (exp eps)) (1 - exp eps) p ->
  divergence_is P Q eps (hend (gap P Q (exp eps)) (1 - exp eps) p).
Proof.
  intros HP. split.
  - intros cuts HS. rewrite observe_gap. apply (peaked_gains _ _ _ HP cuts HS).
  - destruct (peaked_attained _ _ _ HP) as (cuts & HS & E). exists cuts. split; [assumption|]. rewrite observe_gap. exact E.
Qed.

(** ** Peaks from the behaviour on the reals *)
Definition uni (H : R -> R) (p : xr) : Prop :=
  p <> NaN /\
  (forall x y, x <= y -> xleb (Fin y) p = true -> H x <= H y) /\
  (forall x y, x <= y -> xleb p (Fin x) = true -> H y <= H x).

Lemma small_choice t c : 0 <= t -> 0 < c -> exists e, 0 < e /\ t * e < c.
Proof.
  intros Ht Hc. exists (c / (t + 1)). assert (0 < / (t + 1)) by (apply Rinv_0_lt_compat; lra). split.
  - apply Rmult_lt_0_compat; assumption.
  - apply (Rmult_lt_reg_r (t + 1)); [lra|]. unfold Rdiv. rewrite <- Rmult_assoc, Rmult_assoc, Rinv_l by lra. nra.
Qed.
Lemma le_all (x c t : R) : 0 <= t -> (forall e, 0 < e -> x <= c + t * e) -> x <= c.
Proof.
  intros Ht H. destruct (Rle_dec x c) as [|N]; [assumption|]. exfalso.
  destruct (small_choice t (x - c) Ht ltac:(lra)) as (e & He & L). specialize (H e He). lra.
Qed.
Lemma uni_peaked P Q t p : is_cdf P -> is_cdf Q -> 0 <= t -> uni (gap P Q t) p -> peaked (gap P Q t) (1 - t) p.
Proof.
  intros (BP & MP & LP & UP) (BQ & MQ & LQ & UQ) Ht (N & U & D).
  assert (A1 : forall b, xleb (Fin b) p = true -> 0 <= gap P Q t b).
  { intros b Hb. apply (Rplus_le_reg_r 0). rewrite Rplus_0_r. apply (le_all _ _ t Ht). intros e He.
    destruct (LQ e He) as [a Ha]. pose proof (U (Rmin a b) b (Rmin_r _ _) Hb) as M.
    assert (Q (Rmin a b) <= Q a) by (apply MQ, Rmin_l). pose proof (BP (Rmin a b)). pose proof (BQ (Rmin a b)). unfold gap in *. nra. }
  assert (A2 : p = PInf -> forall a, gap P Q t a <= 1 - t).
  { intros -> a. apply (le_all _ _ t Ht). intros e He. destruct (UQ e He) as [y Hy].
    pose proof (U a (Rmax a y) (Rmax_l _ _) eq_refl) as M. assert (Q y <= Q (Rmax a y)) by (apply MQ, Rmax_r).
    pose proof (BP (Rmax a y)). unfold gap in *. nra. }
  assert (A3 : forall a, xleb p (Fin a) = true -> 1 - t <= gap P Q t a).
  { intros a Ha. apply (le_all _ _ 1 Rle_0_1). intros e He. destruct (UP e He) as [y Hy].
    pose proof (D a (Rmax a y) (Rmax_l _ _) Ha) as M. assert (P y <= P (Rmax a y)) by (apply MP, Rmax_r).
    pose proof (BQ (Rmax a y)). unfold gap in *. nra. }
  assert (A4 : p = MInf -> forall b, gap P Q t b <= 0).
  { intros -> b. apply (le_all _ _ 1 Rle_0_1). intros e He. destruct (LP e He) as [a Ha].
    pose proof (D (Rmin a b) b (Rmin_r _ _) eq_refl) as M. assert (P (Rmin a b) <= P a) by (apply MP, Rmin_l).
    pose proof (BQ (Rmin a b)). unfold gap in *. nra. }
  split; [assumption|]. split.
  - intros x y L1 L2. destruct x as [a| | |], y as [b| | |]; cbn [hend]; try discriminate L1; try lra.
    + apply U; [apply xleb_fin in L1; assumption | assumption].
    + destruct p; try discriminate L2. apply A2. reflexivity.
    + apply A1, L2.
    + destruct p; try discriminate L2. pose proof (A1 0 eq_refl). pose proof (A2 eq_refl 0). lra.
  - intros x y L1 L2. destruct x as [a| | |], y as [b| | |]; cbn [hend]; try discriminate L2; try lra.
    + apply D; [apply xleb_fin in L2; assumption | assumption].
    + apply A3, L1.
    + destruct p; try discriminate L1. apply A4. reflexivity.
    + destruct p; try discriminate L1. pose proof (A4 eq_refl 0). pose proof (A3 0 eq_refl). lra.
Qed.

Lemma uni_ext H H' p : (forall x, H x = H' x) -> uni H p -> uni H' p.
Proof. intros E (N & U & D). split; [assumption|]. split; intros; rewrite <- !E; auto. Qed.
Lemma uni_scale H p c : 0 <= c -> uni H p -> uni (fun x => c * H x) p.
Proof. intros Hc (N & U & D). split; [assumption|]. split; intros x y L1 L2; apply Rmult_le_compat_l; auto. Qed.
Lemma uni_shift H p a : uni H p -> uni (fun x => H (x + a)) (xadd p (Fin (- a))).
Proof.
  intros (N & U & D). split; [destruct p; cbn; congruence|]. split; intros x y L1 L2.
  - apply U; [lra|]. destruct p; cbn in *; try discriminate; try reflexivity.
    revert L2. destruct (Rleb_spec y (r + - a)); [|discriminate]. intros _. apply Rleb_true. lra.
  - apply D; [lra|]. destruct p; cbn in *; try discriminate; try reflexivity.
    revert L2. destruct (Rleb_spec (r + - a) x); [|discriminate]. intros _. apply Rleb_true. lra.
Qed.
Lemma uni_incr H : (forall x y, x <= y -> H x <= H y) -> uni H PInf.
Proof. intros M. split; [discriminate|]. split; [auto | discriminate]. Qed.
Lemma uni_decr H : (forall x y, x <= y -> H y <= H x) -> uni H MInf.
Proof. intros M. split; [discriminate|]. split; [discriminate | auto]. Qed.
