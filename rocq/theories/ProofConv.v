(** Converting Renyi bounds to (epsilon, delta). *)
From Verif Require Import Base XReal Exn SpecDP SpecRenyi SpecRdp ProofDP ProofRenyi TypesEvent TypesRelation ModelMake ModelRdp.

Local Arguments Rltb : simpl never.
Local Arguments Rleb : simpl never.
Local Arguments Reqb : simpl never.

(** ** Order on extended reals *)
Definition num_x (x : xr) : Prop := x <> NaN.
Lemma xleb_refl x : num_x x -> xleb x x = true.
Proof. destruct x; cbn; try reflexivity; [intros _; apply Rleb_true; lra | intros H; elim H; reflexivity]. Qed.
Lemma xleb_trans x y z : xleb x y = true -> xleb y z = true -> xleb x z = true.
Proof.
  destruct x, y, z; cbn; try congruence. destruct (Rleb_spec r r0), (Rleb_spec r0 r1); try discriminate.
  intros _ _. apply Rleb_true. lra.
Qed.
Lemma xltb_leb x y : xltb x y = true -> xleb x y = true.
Proof. destruct x, y; cbn; try congruence. destruct (Rltb_spec r r0); try discriminate. intros _. apply Rleb_true. lra. Qed.
Lemma xltb_false_leb x y : num_x x -> num_x y -> xltb x y = false -> xleb y x = true.
Proof.
  destruct x, y; cbn; try congruence; intros N1 N2; try (elim N1; reflexivity); try (elim N2; reflexivity).
  destruct (Rltb_spec r r0); try discriminate. intros _. apply Rleb_true. lra.
Qed.
Lemma xleb_num x y : xleb x y = true -> num_x x /\ num_x y.
Proof. destruct x, y; cbn; try discriminate; split; discriminate. Qed.

Lemma pymax_ge_l x y : num_x x -> xleb x (pymax x y) = true.
Proof. intros N. unfold pymax. destruct (xltb x y) eqn:E; [apply xltb_leb; assumption | apply xleb_refl; assumption]. Qed.
Lemma pymax_mono x y z : num_x x -> xleb y z = true -> xleb (pymax x y) (pymax x z) = true.
Proof.
  intros N H. destruct (xleb_num _ _ H) as [Ny Nz]. unfold pymax.
  destruct (xltb x y) eqn:Exy, (xltb x z) eqn:Exz; try assumption.
  - apply xltb_false_leb in Exz; try assumption. eapply xleb_trans; eassumption.
  - apply xltb_leb; assumption.
  - apply xleb_refl; assumption.
Qed.
Lemma pymin_mono x x' y y' : xleb x x' = true -> xleb y y' = true -> xleb (pymin x y) (pymin x' y') = true.
Proof.
  intros H H'. destruct (xleb_num _ _ H) as [N N1], (xleb_num _ _ H') as [N2 N3]. unfold pymin.
  destruct (xltb y x) eqn:E1, (xltb y' x') eqn:E2; try assumption.
  - apply xltb_leb in E1. eapply xleb_trans; eassumption.
  - apply xltb_false_leb in E1; try assumption. eapply xleb_trans; eassumption.
Qed.
Lemma pymin_num x y : num_x x -> num_x y -> num_x (pymin x y).
Proof. unfold pymin. destruct (xltb y x); auto. Qed.
Lemma pymin_or x y : pymin x y = x \/ pymin x y = y.
Proof. unfold pymin. destruct (xltb y x); auto. Qed.
Lemma pymin_le_l x y : num_x x -> xleb (pymin x y) x = true.
Proof. intros N. unfold pymin. destruct (xltb y x) eqn:E; [apply xltb_leb | apply xleb_refl]; assumption. Qed.
Lemma xexp_mono x y : xleb x y = true -> xleb (xexp x) (xexp y) = true.
Proof.
  destruct x, y; cbn; try congruence; intros H; try reflexivity; try (apply Rleb_true; try apply exp_pos_nonneg; try lra).
  destruct (Rleb_spec r r0); [apply exp_le; assumption | discriminate].
Qed.

(** ** The search for the best order *)
Lemma argmin_from_spec l : forall best, num_x (fst best) -> (forall x, In x l -> num_x (fst x)) ->
  In (argmin_from l best) (best :: l) /\
  forall x, In x (best :: l) -> xleb (fst (argmin_from l best)) (fst x) = true.
Proof.
  induction l as [|y l IH]; intros best Nb Nl.
  - split; [left; reflexivity|]. intros x [<-|[]]. apply xleb_refl; assumption.
  - assert (Ny : num_x (fst y)) by (apply Nl; left; reflexivity).
    assert (Nl' : forall x, In x l -> num_x (fst x)) by (intros; apply Nl; right; assumption).
    assert (E : argmin_from (y :: l) best = argmin_from l (if xltb (fst y) (fst best) then y else best)).
    { cbn [argmin_from]. destruct (fst best); [| | |elim Nb; reflexivity];
        (destruct (fst y); [| | |elim Ny; reflexivity]); reflexivity. }
    rewrite E. destruct (xltb (fst y) (fst best)) eqn:L.
    + destruct (IH y Ny Nl') as [I1 I2]. split.
      * destruct I1 as [<-|I1]; [right; left; reflexivity | right; right; assumption].
      * intros x [<-|[<-|H]]; [|apply I2; left; reflexivity | apply I2; right; assumption].
        eapply xleb_trans; [apply I2; left; reflexivity | apply xltb_leb; assumption].
    + destruct (IH best Nb Nl') as [I1 I2]. split.
      * destruct I1 as [<-|I1]; [left; reflexivity | right; right; assumption].
      * intros x [<-|[<-|H]]; [apply I2; left; reflexivity | | apply I2; right; assumption].
        eapply xleb_trans; [apply I2; left; reflexivity | apply xltb_false_leb; assumption].
Qed.

Lemma argmin_spec l b : argmin l = Ok b -> (forall x, In x l -> num_x (fst x)) ->
  In b l /\ forall x, In x l -> xleb (fst b) (fst x) = true.
Proof.
  destruct l as [|x l]; [discriminate|]. cbn [argmin]. intros [= <-] N.
  apply argmin_from_spec; [apply N; left; reflexivity | intros; apply N; right; assumption].
Qed.

Lemma map_res_ok {A B} (f : A -> res B) l l' : map_res f l = Ok l' -> Forall2 (fun a b => f a = Ok b) l l'.
Proof.
  revert l'; induction l as [|a l IH]; intros l'; cbn.
  - intros [= <-]. constructor.
  - destruct (f a) as [b|] eqn:E; [|discriminate]. cbn. destruct (map_res f l) as [bs|]; [|discriminate].
    intros [= <-]. constructor; [assumption | apply IH; reflexivity].
Qed.
Lemma map_res_total {A B} (f : A -> res B) l (g : A -> B) : (forall a, In a l -> f a = Ok (g a)) ->
  map_res f l = Ok (map g l).
Proof.
  induction l as [|a l IH]; cbn; intros H; [reflexivity|]. rewrite H by (left; reflexivity). cbn.
  rewrite IH by (intros; apply H; right; assumption). reflexivity.
Qed.

(** The elements considered: orders below 1 are refused. *)
Lemma map_orders (F : xr -> xr -> xr) l l' :
  map_res (fun ar : xr * xr => if xltb (fst ar) (Fin 1) then Err ValueError
                               else Ok (F (fst ar) (snd ar), fst ar)) l = Ok l' ->
  l' = map (fun ar => (F (fst ar) (snd ar), fst ar)) l /\ forall ar, In ar l -> xltb (fst ar) (Fin 1) = false.
Proof.
  revert l'; induction l as [|[a r] l IH]; intros l'; cbn [map_res fst snd map].
  - intros [= <-]. split; [reflexivity | intros ? []].
  - destruct (xltb a (Fin 1)) eqn:E; [discriminate|]. cbn [bind].
    destruct (map_res _ l) as [bs|]; [|discriminate]. intros [= <-].
    destruct (IH bs eq_refl) as [-> H]. split; [reflexivity|].
    intros ar [<-|I]; [assumption | apply H; assumption].
Qed.

Lemma epsilon_spec orders rdp delta e o :
  0 < delta -> compute_epsilon orders rdp delta = Ok (e, o) ->
  (forall a r, In (a, r) (combine orders rdp) -> num_x (eps_of_order delta a r)) ->
  length orders = length rdp /\
  (forall a r, In (a, r) (combine orders rdp) -> xltb a (Fin 1) = false) /\
  exists r, In (o, r) (combine orders rdp) /\ e = pymax (Fin 0) (eps_of_order delta o r) /\
    forall a' r', In (a', r') (combine orders rdp) ->
      xleb (eps_of_order delta o r) (eps_of_order delta a' r') = true.
Proof.
  intros Hd H N. unfold compute_epsilon in H.
  rewrite Rltb_false, Reqb_false in H by lra.
  destruct (Nat.eqb_spec (length orders) (length rdp)) as [L|]; [|discriminate]. cbn [negb] in H.
  destruct (map_res _ _) as [l|] eqn:M; [|discriminate]. cbn [bind] in H.
  apply (map_orders (eps_of_order delta)) in M. destruct M as [-> M].
  destruct (argmin _) as [b|] eqn:A; [|discriminate]. cbn [bind] in H. injection H as <- <-.
  apply argmin_spec in A.
  - destruct A as [I Mn]. apply in_map_iff in I. destruct I as ([a r] & <- & I). cbn [fst snd].
    split; [assumption|]. split; [intros a' r' I'; apply (M _ I')|].
    exists r. split; [assumption|]. split; [reflexivity|].
    intros a' r' I'. apply (Mn (eps_of_order delta a' r', a')).
    apply in_map_iff. exists (a', r'). split; [reflexivity | assumption].
  - intros x I. apply in_map_iff in I. destruct I as ([a r] & <- & I). apply (N a r I).
Qed.

Lemma delta_spec orders rdp eps d o :
  compute_delta orders rdp eps = Ok (d, o) ->
  (forall a r, In (a, r) (combine orders rdp) -> num_x (logdelta_of_order eps a r)) ->
  xltb eps (Fin 0) = false /\ length orders = length rdp /\
  (forall a r, In (a, r) (combine orders rdp) -> xltb a (Fin 1) = false) /\
  exists r, In (o, r) (combine orders rdp) /\ d = pymin (xexp (logdelta_of_order eps o r)) (Fin 1) /\
    forall a' r', In (a', r') (combine orders rdp) ->
      xleb (logdelta_of_order eps o r) (logdelta_of_order eps a' r') = true.
Proof.
  intros H N. unfold compute_delta in H.
  destruct (xltb eps (Fin 0)); [discriminate|]. split; [reflexivity|].
  destruct (Nat.eqb_spec (length orders) (length rdp)) as [L|]; [|discriminate]. cbn [negb] in H.
  destruct (map_res _ _) as [l|] eqn:M; [|discriminate]. cbn [bind] in H.
  apply (map_orders (logdelta_of_order eps)) in M. destruct M as [-> M].
  destruct (argmin _) as [b|] eqn:A; [|discriminate]. cbn [bind] in H. injection H as <- <-.
  apply argmin_spec in A.
  - destruct A as [I Mn]. apply in_map_iff in I. destruct I as ([a r] & <- & I). cbn [fst snd].
    split; [assumption|]. split; [intros a' r' I'; apply (M _ I')|].
    exists r. split; [assumption|]. split; [reflexivity|].
    intros a' r' I'. apply (Mn (logdelta_of_order eps a' r', a')).
    apply in_map_iff. exists (a', r'). split; [reflexivity | assumption].
  - intros x I. apply in_map_iff in I. destruct I as ([a r] & <- & I). apply (N a r I).
Qed.

(** ** The bound at one order *)
(** The kinds of values an RDP vector holds. *)

Lemma eps_of_order_PInf delta a : 0 < delta <= 1 -> 1 <= a -> eps_of_order delta (Fin a) PInf = PInf.
Proof.
  intros Hd Ha. unfold eps_of_order. cbn.
  rewrite Rltb_false by nra. destruct (Rltb_spec (101 / 100) a); [|reflexivity].
  rewrite Reqb_false by lra. cbn. rewrite Reqb_false by lra. reflexivity.
Qed.
Lemma eps_of_order_Fin delta a r : 0 < delta -> 1 <= a ->
  eps_of_order delta (Fin a) (Fin r) =
  if Rltb r 0 then Fin 0
  else if Rltb 0 (delta * delta + (exp (- r) - 1)) then Fin 0
  else if Rltb (101 / 100) a then Fin (r + ln (1 - / a) - ln (delta * a) / (a - 1)) else PInf.
Proof.
  intros Hd Ha. unfold eps_of_order. cbn. destruct (Rltb r 0); [reflexivity|].
  replace (exp (- r) + - (1)) with (exp (- r) - 1) by ring.
  destruct (Rltb 0 _); [reflexivity|]. destruct (Rltb_spec (101 / 100) a); [|reflexivity].
  rewrite Reqb_false by lra. cbn. rewrite Reqb_false by lra. cbn. f_equal.
  replace (1 + -1 / a) with (1 - / a) by (field; lra).
  replace (a + - (1)) with (a - 1) by ring. unfold Rdiv. ring.
Qed.

Lemma eps_of_order_num delta a r : 0 < delta -> 1 <= a -> finpos r -> num_x (eps_of_order delta (Fin a) r).
Proof.
  intros Hd Ha Hr. destruct r as [r| | |]; try contradiction.
  - rewrite eps_of_order_Fin by assumption. repeat (destruct (Rltb _ _)); discriminate.
  - destruct (Rle_lt_dec delta 1).
    + rewrite eps_of_order_PInf by lra. discriminate.
    + unfold eps_of_order. cbn. rewrite Rltb_true by nra. discriminate.
Qed.

Lemma hs_mono_eps E e e' : valid E -> e <= e' -> hockey_stick E e' <= hockey_stick E e.
Proof.
  intros V H. apply rsum_le. intros o Ho. apply pos_le.
  pose proof (Q_pos E V o Ho). pose proof (exp_le e e' H). nra.
Qed.
Lemma hs_le1 E e : valid E -> hockey_stick E e <= 1.
Proof. intros V. rewrite hockey_hs. apply hs_le_a; [assumption | lra | apply exp_pos_nonneg]. Qed.

Lemma eps_of_order_sound E delta a r e : valid E -> 0 < delta -> renyi_bounded E (Fin a) r ->
  1 <= a -> pymax (Fin 0) (eps_of_order delta (Fin a) r) = Fin e -> hockey_stick E e <= delta.
Proof.
  intros V Hd B Ha. destruct r as [r| | |]; try contradiction.
  - pose proof (renyi_nonneg E _ r V B) as Hr.
    rewrite eps_of_order_Fin by assumption. rewrite (Rltb_false r 0) by assumption.
    pose proof (tv_renyi E _ r V B) as T.
    destruct (Rltb_spec 0 (delta * delta + (exp (- r) - 1))) as [G|G].
    + unfold pymax. cbn. rewrite Rltb_false by lra. intros [= <-].
      eapply Rle_trans; [apply hs_tv; [assumption | lra]|].
      pose proof (tv_nonneg E). nra.
    + destruct (Rltb_spec (101 / 100) a) as [L|L]; [|discriminate].
      assert (Ha1 : 1 < a) by lra.
      pose proof (hs_renyi E a r (r + ln (1 - / a) - ln (delta * a) / (a - 1)) V Ha1 B) as S.
      replace ((a - 1) * (r - (r + ln (1 - / a) - ln (delta * a) / (a - 1)) + ln (1 - / a)) - ln a)
        with (ln (delta * a) - ln a) in S by (field; lra).
      replace (exp (ln (delta * a) - ln a)) with delta in S.
      2: { rewrite ln_mult by lra. replace (ln delta + ln a - ln a) with (ln delta) by ring.
           symmetry. apply exp_ln. assumption. }
      intros P. eapply Rle_trans; [|exact S]. apply hs_mono_eps; [assumption|].
      unfold pymax in P. cbn in P. destruct (Rltb_spec 0 (r + ln (1 - / a) - ln (delta * a) / (a - 1)));
        injection P as <-; [apply Rle_refl | apply Rnot_lt_le; assumption].
  - intros P. destruct (Rle_lt_dec delta 1).
    + rewrite eps_of_order_PInf in P by lra. discriminate.
    + pose proof (hs_le1 E e V). lra.
Qed.

(** ** compute_epsilon *)

Lemma curve_vals orders rdp E a r : rdp_curve orders rdp E -> In (a, r) (combine orders rdp) -> finpos r.
Proof.
  intros (_ & _ & H) I. destruct (H a r I) as [B _]. destruct r; try contradiction; exact Logic.I.
Qed.

Lemma ltb1 a : xltb (Fin a) (Fin 1) = false -> 1 <= a.
Proof. cbn. destruct (Rltb_spec a 1); [discriminate | intros _; lra]. Qed.

Lemma swap_curve orders rdp E : rdp_curve orders rdp E -> rdp_curve orders rdp (swap E).
Proof.
  intros (V & L & H). split; [apply valid_swap; assumption|]. split; [assumption|].
  intros a r I. destruct (H a r I). split; [assumption | rewrite swap_swap; assumption].
Qed.

Lemma eps_all_orders delta orders rdp :
  0 < delta -> real_orders orders ->
  (forall a r, In (a, r) (combine orders rdp) -> finpos r) ->
  (forall a r, In (a, r) (combine orders rdp) -> xltb a (Fin 1) = false) ->
  forall a r, In (a, r) (combine orders rdp) -> num_x (eps_of_order delta a r).
Proof.
  intros Hd Ro Fp Ok a r I. destruct (Ro a) as [x ->]; [eapply in_combine_l; eassumption|].
  apply eps_of_order_num; [assumption | apply ltb1, (Ok _ _ I) | apply (Fp _ _ I)].
Qed.

Lemma compute_epsilon_orders orders rdp delta e : 0 < delta -> compute_epsilon orders rdp delta = Ok e ->
  forall a r, In (a, r) (combine orders rdp) -> xltb a (Fin 1) = false.
Proof.
  intros Hd H. unfold compute_epsilon in H. rewrite Rltb_false, Reqb_false in H by lra.
  destruct (negb _); [discriminate|].
  destruct (map_res _ _) as [l|] eqn:M; [|discriminate].
  apply (map_orders (eps_of_order delta)) in M. intros a r I. apply (proj2 M _ I).
Qed.
Lemma compute_delta_orders orders rdp eps d : compute_delta orders rdp eps = Ok d ->
  forall a r, In (a, r) (combine orders rdp) -> xltb a (Fin 1) = false.
Proof.
  intros H. unfold compute_delta in H. destruct (xltb eps (Fin 0)); [discriminate|].
  destruct (negb _); [discriminate|].
  destruct (map_res _ _) as [l|] eqn:M; [|discriminate].
  apply (map_orders (logdelta_of_order eps)) in M. intros a r I. apply (proj2 M _ I).
Qed.

Lemma epsilon_sound1 orders rdp delta E e o :
  rdp_curve orders rdp E -> orders <> [] -> real_orders orders ->
  compute_epsilon orders rdp delta = Ok (Fin e, o) -> dp E e delta.
Proof.
  intros C Ne Ro H. apply dp_iff_hockey. pose proof C as (V & L & B).
  destruct (Rtotal_order delta 0) as [Hd|[Hd|Hd]].
  - unfold compute_epsilon in H. rewrite Rltb_true in H by assumption. discriminate.
  - subst delta. unfold compute_epsilon in H. rewrite Rltb_false, Reqb_refl in H by lra.
    destruct (forallb _ rdp) eqn:F; [|discriminate]. injection H as <- <-.
    destruct orders as [|a orders]; [congruence|]. destruct rdp as [|r rdp]; [discriminate|].
    cbn in F. apply andb_true_iff in F. destruct F as [F _]. destruct r as [r| | |]; try discriminate F.
    cbn in F. destruct (Reqb_spec r 0) as [->|]; [|discriminate].
    destruct (B a (Fin 0) (or_introl eq_refl)) as [Ba _].
    pose proof (tv_renyi E a 0 V Ba) as T. rewrite Ropp_0, exp_0 in T.
    eapply Rle_trans; [apply hs_tv; [assumption | lra]|]. nra.
  - pose proof (compute_epsilon_orders _ _ _ _ Hd H) as O1.
    apply epsilon_spec in H; [|assumption | apply eps_all_orders; try assumption; intros; eapply curve_vals; eassumption].
    destruct H as (_ & _ & r & I & P & _).
    destruct (Ro o) as [x ->]; [eapply in_combine_l; eassumption|].
    eapply eps_of_order_sound; [exact V | exact Hd | apply (B _ _ I) | apply ltb1, (O1 _ _ I) | symmetry; exact P].
Qed.

Lemma epsilon_sound orders rdp delta E e o :
  rdp_curve orders rdp E -> orders <> [] -> real_orders orders ->
  compute_epsilon orders rdp delta = Ok (Fin e, o) -> dp_both E e delta.
Proof.
  intros C Ne Ro H. split; eapply epsilon_sound1; try eassumption. apply swap_curve; assumption.
Qed.

(** The result is a non-negative number or infinity. *)
Lemma epsilon_range orders rdp delta e o :
  real_orders orders -> (forall a r, In (a, r) (combine orders rdp) -> finpos r) ->
  compute_epsilon orders rdp delta = Ok (e, o) -> e = PInf \/ exists x, e = Fin x /\ 0 <= x.
Proof.
  intros Ro Fp H. destruct (Rtotal_order delta 0) as [Hd|[Hd|Hd]].
  - unfold compute_epsilon in H. rewrite Rltb_true in H by assumption. discriminate.
  - subst delta. unfold compute_epsilon in H. rewrite Rltb_false, Reqb_refl in H by lra.
    destruct (forallb _ rdp); injection H as <- <-; [right; exists 0; split; [reflexivity | lra] | left; reflexivity].
  - pose proof (compute_epsilon_orders _ _ _ _ Hd H) as O1.
    apply epsilon_spec in H; [|assumption | apply eps_all_orders; assumption].
    destruct H as (_ & _ & r & I & -> & _). unfold pymax.
    destruct (eps_of_order delta o r) as [y| | |]; cbn; [|left; reflexivity | right; exists 0; split; [reflexivity|lra] ..].
    destruct (Rltb_spec 0 y); right; [exists y | exists 0]; (split; [reflexivity | lra]).
Qed.

(** A result is returned for every well-formed argument. *)
Lemma epsilon_total orders rdp delta :
  0 <= delta -> orders <> [] -> length orders = length rdp ->
  (forall a, In a orders -> xltb a (Fin 1) = false) ->
  exists e o, compute_epsilon orders rdp delta = Ok (e, o).
Proof.
  intros Hd Ne L Ok1. unfold compute_epsilon. rewrite Rltb_false by assumption.
  destruct (Reqb delta 0); [destruct (forallb _ rdp); do 2 eexists; reflexivity|].
  rewrite L, Nat.eqb_refl. cbn [negb].
  rewrite (map_res_total _ _ (fun ar => (eps_of_order delta (fst ar) (snd ar), fst ar))).
  - cbn [bind]. destruct orders as [|a orders]; [congruence|]. destruct rdp as [|r rdp]; [discriminate|].
    cbn [combine map argmin bind]. do 2 eexists. reflexivity.
  - intros [a r] I. cbn [fst snd]. rewrite Ok1; [reflexivity | eapply in_combine_l; eassumption].
Qed.

(** The best order is chosen. *)
Lemma epsilon_best orders rdp delta e o a r e' o' :
  real_orders orders -> (forall a r, In (a, r) (combine orders rdp) -> finpos r) ->
  0 < delta -> compute_epsilon orders rdp delta = Ok (e, o) ->
  In (a, r) (combine orders rdp) -> compute_epsilon [a] [r] delta = Ok (e', o') ->
  xleb e e' = true.
Proof.
  intros Ro Fp Hd H I H'.
  pose proof (compute_epsilon_orders _ _ _ _ Hd H) as O1.
  pose proof (eps_all_orders delta orders rdp Hd Ro Fp O1) as N.
  apply epsilon_spec in H; [|assumption | assumption].
  apply epsilon_spec in H'; [|assumption | intros ? ? [[= <- <-]|[]]; apply N; assumption].
  destruct H as (_ & _ & r0 & I0 & -> & Best). destruct H' as (_ & _ & r1 & [[= <- <-]|[]] & -> & _).
  apply pymax_mono; [discriminate | apply Best; assumption].
Qed.

(** ** compute_delta *)
Lemma xlog1p_fin a : xlog1p (xdiv (Fin (-1)) (Fin a)) = if Reqb a 0 then xlog (if Rltb 0 (-1) then PInf else if Rltb (-1) 0 then MInf else NaN) else Fin (ln (1 + -1 / a)).
Proof. unfold xlog1p, xdiv. destruct (Reqb a 0); [|reflexivity]. destruct (Rltb 0 (-1)); [reflexivity|]. destruct (Rltb (-1) 0); reflexivity. Qed.

(** The two candidate values of log delta. *)
Definition log_bh (r : R) : xr := if Rleb r 0 then MInf else Fin (/ 2 * ln (1 - exp (- r))).
Lemma logdelta_Fin eps a r : 1 <= a ->
  logdelta_of_order (Fin eps) (Fin a) (Fin r) =
  if Rltb (101 / 100) a
  then pymin (log_bh r) (Fin ((a - 1) * (r - eps + ln (1 - / a)) - ln a)) else log_bh r.
Proof.
  intros Ha. unfold logdelta_of_order.
  assert (E : (if xltb (Fin r) (Fin 0) then MInf else if xeqb (Fin r) (Fin 0) then MInf
    else xmul (Fin (/ 2)) (xlog1p (xneg (xexp (xneg (Fin r)))))) = log_bh r).
  { unfold log_bh. cbn. destruct (Rltb_spec r 0), (Reqb_spec r 0), (Rleb_spec r 0); try lra; reflexivity. }
  rewrite E. cbn [xltb]. destruct (Rltb_spec (101 / 100) a) as [L|L]; [|reflexivity].
  rewrite xlog1p_fin, Reqb_false by lra. cbn. f_equal. f_equal.
  replace (1 + -1 / a) with (1 - / a) by (field; lra). ring.
Qed.
Lemma logdelta_inf_order eps r :
  logdelta_of_order (Fin eps) PInf (Fin r) = if Rltb r eps then MInf else log_bh r.
Proof.
  unfold logdelta_of_order.
  assert (E : (if xltb (Fin r) (Fin 0) then MInf else if xeqb (Fin r) (Fin 0) then MInf
    else xmul (Fin (/ 2)) (xlog1p (xneg (xexp (xneg (Fin r)))))) = log_bh r).
  { unfold log_bh. cbn. destruct (Rltb_spec r 0), (Reqb_spec r 0), (Rleb_spec r 0); try lra; reflexivity. }
  rewrite E. cbn. rewrite Rplus_0_r, ln_1, Rplus_0_r. unfold inf_times.
  destruct (Rltb_spec r eps).
  - rewrite Rltb_false by lra. rewrite Rltb_true by lra. cbn. unfold pymin. destruct (log_bh r) eqn:B; cbn; try reflexivity.
    + unfold log_bh in B. destruct (Rleb r 0); discriminate.
  - destruct (Rltb_spec 0 (r + - eps)); [|rewrite Rltb_false by lra]; cbn; unfold pymin; destruct (log_bh r); reflexivity.
Qed.
Lemma logdelta_PInf eps a : match a with Fin a => 1 <= a | PInf => True | _ => False end ->
  logdelta_of_order (Fin eps) a PInf = Fin 0.
Proof.
  intros Ha. unfold logdelta_of_order. cbn [xltb xeqb xneg xexp].
  replace (xmul (Fin (/ 2)) (xlog1p (Fin (- 0)))) with (Fin 0).
  2: { cbn. f_equal. rewrite Ropp_0, Rplus_0_r, ln_1. ring. }
  destruct a as [a| | |]; try contradiction.
  - destruct (Rltb_spec (101 / 100) a); [|reflexivity].
    rewrite xlog1p_fin, Reqb_false by lra. cbn. unfold inf_times. rewrite Rltb_true by lra. reflexivity.
  - cbn. reflexivity.
Qed.
Lemma log_bh_num r : num_x (log_bh r).
Proof. unfold log_bh. destruct (Rleb r 0); discriminate. Qed.
Lemma log_bh_top r : xleb (log_bh r) (Fin 0) = true.
Proof.
  unfold log_bh. destruct (Rleb_spec r 0); [reflexivity|]. cbn. apply Rleb_true.
  assert (exp (- r) < 1) by (rewrite <- exp_0; apply exp_increasing; lra).
  pose proof (exp_pos (- r)).
  pose proof (ln_le_sub (1 - exp (- r)) ltac:(lra)). lra.
Qed.

Lemma logdelta_num eps a r : order_ok a -> finpos r -> num_x (logdelta_of_order (Fin eps) a r).
Proof.
  intros Ha Hr. destruct r as [r| | |]; try contradiction.
  - destruct a as [a| | |]; try contradiction.
    + rewrite logdelta_Fin by assumption. destruct (Rltb _ _); [apply pymin_num; [apply log_bh_num | discriminate] | apply log_bh_num].
    + rewrite logdelta_inf_order. destruct (Rltb r eps); [discriminate | apply log_bh_num].
  - rewrite logdelta_PInf by assumption. discriminate.
Qed.

Lemma log_bh_sound E a r d : valid E -> renyi_bounded E a (Fin r) -> xexp (log_bh r) = Fin d -> tv E <= d.
Proof.
  intros V B H. pose proof (tv_renyi E a r V B) as T. pose proof (renyi_nonneg E a r V B) as Hr.
  pose proof (tv_nonneg E) as Tn. unfold log_bh in H. destruct (Rleb_spec r 0).
  - injection H as <-. replace r with 0 in T by lra. rewrite Ropp_0, exp_0 in T. nra.
  - injection H as <-.
    assert (exp (- r) < 1) by (rewrite <- exp_0; apply exp_increasing; lra).
    set (x := exp (/ 2 * ln (1 - exp (- r)))).
    assert (X : x * x = 1 - exp (- r)).
    { unfold x. rewrite <- exp_plus. replace (/ 2 * ln (1 - exp (- r)) + / 2 * ln (1 - exp (- r)))
        with (ln (1 - exp (- r))) by field. apply exp_ln. lra. }
    assert (0 < x) by apply exp_pos. nra.
Qed.

Lemma logdelta_sound E eps a r d : valid E -> 0 <= eps -> order_ok a -> renyi_bounded E a r ->
  pymin (xexp (logdelta_of_order (Fin eps) a r)) (Fin 1) = Fin d -> hockey_stick E eps <= d.
Proof.
  intros V He Ha B H.
  assert (S : forall y, xexp (logdelta_of_order (Fin eps) a r) = Fin y -> hockey_stick E eps <= y).
  { clear H d. intros y H. destruct r as [r| | |]; try contradiction.
    - destruct a as [a| | |]; try contradiction.
      + rewrite logdelta_Fin in H by assumption. destruct (Rltb_spec (101 / 100) a) as [L|L].
        * destruct (pymin_or (log_bh r) (Fin ((a - 1) * (r - eps + ln (1 - / a)) - ln a))) as [E1|E1]; rewrite E1 in H.
          -- eapply Rle_trans; [apply hs_tv; assumption | eapply log_bh_sound; eassumption].
          -- injection H as <-. apply hs_renyi; [assumption | lra | assumption].
        * eapply Rle_trans; [apply hs_tv; assumption | eapply log_bh_sound; eassumption].
      + rewrite logdelta_inf_order in H. destruct (Rltb_spec r eps) as [L|L].
        * injection H as <-. destruct B as [_ B]. apply Req_le, rsum_zero. intros o Ho. apply pos_0.
          specialize (B o Ho). pose proof (Q_pos E V o Ho). pose proof (exp_le r eps ltac:(lra)). nra.
        * eapply Rle_trans; [apply hs_tv; assumption | eapply log_bh_sound; eassumption].
    - rewrite logdelta_PInf in H by assumption. injection H as <-. rewrite exp_0. apply hs_le1; assumption. }
  destruct (pymin_or (xexp (logdelta_of_order (Fin eps) a r)) (Fin 1)) as [E1|E1]; rewrite E1 in H.
  - apply S; assumption.
  - injection H as <-. apply hs_le1; assumption.
Qed.

Lemma good_order_ok a : (exists x, a = Fin x \/ a = PInf) -> xltb a (Fin 1) = false -> order_ok a.
Proof. intros (x & [-> | ->]) H; [apply ltb1; assumption | exact I]. Qed.

Lemma delta_all_orders eps orders rdp :
  good_orders orders -> (forall a r, In (a, r) (combine orders rdp) -> finpos r) ->
  (forall a r, In (a, r) (combine orders rdp) -> xltb a (Fin 1) = false) ->
  forall a r, In (a, r) (combine orders rdp) -> num_x (logdelta_of_order (Fin eps) a r).
Proof.
  intros Go Fp O1 a r I. apply logdelta_num; [|apply (Fp _ _ I)].
  apply good_order_ok; [apply Go; eapply in_combine_l; eassumption | apply (O1 _ _ I)].
Qed.

Lemma delta_sound1 orders rdp eps E d o :
  rdp_curve orders rdp E -> good_orders orders ->
  compute_delta orders rdp (Fin eps) = Ok (d, o) -> exists x, d = Fin x /\ 0 <= x <= 1 /\ dp E eps x.
Proof.
  intros C Go H. pose proof C as (V & L & B).
  pose proof (compute_delta_orders _ _ _ _ H) as O1.
  assert (N := delta_all_orders eps orders rdp Go (fun a r => curve_vals orders rdp E a r C) O1).
  apply delta_spec in H; [|exact N].
  destruct H as (He & _ & _ & r & I & -> & _).
  assert (He' : 0 <= eps) by (cbn in He; destruct (Rltb_spec eps 0); [discriminate | lra]).
  assert (Oo : order_ok o) by (apply good_order_ok; [apply Go; eapply in_combine_l; eassumption | apply (O1 _ _ I)]).
  pose proof (N _ _ I) as Ng.
  assert (X : exists x, pymin (xexp (logdelta_of_order (Fin eps) o r)) (Fin 1) = Fin x /\ 0 <= x <= 1).
  { unfold pymin. destruct (logdelta_of_order (Fin eps) o r) as [y| | |]; cbn.
    - pose proof (exp_pos y). destruct (Rltb_spec 1 (exp y)); [exists 1 | exists (exp y)]; (split; [reflexivity|lra]).
    - exists 1. split; [reflexivity|lra].
    - rewrite Rltb_false by lra. exists 0. split; [reflexivity|lra].
    - elim Ng; reflexivity. }
  destruct X as (x & Hx & Rx). exists x. split; [assumption|]. split; [assumption|].
  apply dp_iff_hockey. eapply logdelta_sound; [exact V | exact He' | exact Oo | apply (B _ _ I) | exact Hx].
Qed.

Lemma delta_sound orders rdp eps E d o :
  rdp_curve orders rdp E -> good_orders orders ->
  compute_delta orders rdp (Fin eps) = Ok (d, o) -> exists x, d = Fin x /\ 0 <= x <= 1 /\ dp_both E eps x.
Proof.
  intros C Go H. destruct (delta_sound1 _ _ _ _ _ _ C Go H) as (x & -> & R1 & D1).
  destruct (delta_sound1 _ _ _ _ _ _ (swap_curve _ _ _ C) Go H) as (x' & [= <-] & _ & D2).
  exists x. split; [reflexivity|]. split; [assumption | split; assumption].
Qed.

Lemma delta_total orders rdp eps :
  0 <= eps -> orders <> [] -> length orders = length rdp ->
  (forall a, In a orders -> xltb a (Fin 1) = false) ->
  exists d o, compute_delta orders rdp (Fin eps) = Ok (d, o).
Proof.
  intros He Ne L Ok1. unfold compute_delta. cbn [xltb]. rewrite Rltb_false by assumption.
  rewrite L, Nat.eqb_refl. cbn [negb].
  rewrite (map_res_total _ _ (fun ar => (logdelta_of_order (Fin eps) (fst ar) (snd ar), fst ar))).
  - cbn [bind]. destruct orders as [|a orders]; [congruence|]. destruct rdp as [|r rdp]; [discriminate|].
    cbn [combine map argmin bind]. do 2 eexists. reflexivity.
  - intros [a r] I. cbn [fst snd]. rewrite Ok1; [reflexivity | eapply in_combine_l; eassumption].
Qed.

Lemma delta_best orders rdp eps d o a r d' o' :
  good_orders orders -> (forall a r, In (a, r) (combine orders rdp) -> finpos r) ->
  compute_delta orders rdp (Fin eps) = Ok (d, o) ->
  In (a, r) (combine orders rdp) -> compute_delta [a] [r] (Fin eps) = Ok (d', o') ->
  xleb d d' = true.
Proof.
  intros Ro Fp H I H'.
  pose proof (compute_delta_orders _ _ _ _ H) as O1.
  pose proof (delta_all_orders eps orders rdp Ro Fp O1) as N.
  apply delta_spec in H; [|assumption].
  apply delta_spec in H'; [|intros ? ? [[= <- <-]|[]]; apply N; assumption].
  destruct H as (_ & _ & _ & r0 & I0 & -> & Best). destruct H' as (_ & _ & _ & r1 & [[= <- <-]|[]] & -> & _).
  apply pymin_mono; [apply xexp_mono, Best; assumption | cbn; apply Rleb_true; lra].
Qed.
