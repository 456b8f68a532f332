(** The RDP accountant with its series for fractional orders. *)
From Verif Require Import Base XReal Exn TypesEvent TypesRelation SpecEvent SpecDP SpecMake SpecMech SpecRenyi SpecRdp SpecNoiseAcc SpecAccPld SpecAccountant SpecSelect SpecRdpEvent SpecSeries.
From Verif Require Import ModelRdp ModelAccountant ModelFrac ProofDP ProofRenyi ProofAccAdd ProofAccMono ProofConv ProofPoisson ProofRdpAtom ProofRdpSample ProofRdpEnd ProofFrac ProofAccSound.
Local Open Scope R_scope.
Local Arguments Rltb : simpl never.
Local Arguments Rleb : simpl never.
Local Arguments Reqb : simpl never.

Lemma slack_nonneg a : 0 <= slack a.
Proof. unfold slack. apply Rmult_le_pos; [apply pow_le; lra | left; apply exp_pos]. Qed.
Definition extra (o : xr) : R := match o with Fin a => if is_integer a then 0 else slack a / (a - 1) | _ => 0 end.
Lemma extra_nonneg o : order_ok o -> 0 <= extra o.
Proof.
  destruct o as [a| | |]; cbn; intros H; try lra. destruct (is_integer a) eqn:I; [lra|]. assert (1 < a).
  { destruct H as [H|<-]; [exact H|]. unfold is_integer in I. rewrite (Rfloor_unique 1 1) in I by lra. rewrite Reqb_true in I by reflexivity. discriminate. }
  apply Rmult_le_pos; [apply slack_nonneg | left; apply Rinv_0_lt_compat; lra].
Qed.
Lemma bounded_more E o r : order_ok o -> rdp_bounded E o r -> rdp_bounded E o (xadd r (Fin (extra o))).
Proof.
  intros HO. pose proof (extra_nonneg o HO) as P.
  assert (K : forall E, renyi_bounded E o r -> renyi_bounded E o (xadd r (Fin (extra o)))).
  { clear E. intros E B. destruct r as [r| | |]; try contradiction; cbn [xadd renyi_bounded] in *; [|exact Logic.I]. destruct B as [B1 B2]. split; [exact B1|].
    destruct o as [a| | |]; try contradiction; [lra|]. cbn [extra]. rewrite Rplus_0_r. exact B2. }
  intros [B1 B2]. split; apply K; assumption.
Qed.
Lemma combine_add (orders v w : list xr) o r : In (o, r) (combine orders (vec_add v w)) -> exists x y, r = xadd x y /\ In (o, x) (combine orders v) /\ In (o, y) (combine orders w).
Proof.
  revert v w. induction orders as [|o' l IH]; intros v w; [intros []|]. destruct v as [|x v]; [intros []|]. destruct w as [|y w]; [intros []|].
  cbn [vec_add combine map]. intros [[= <- <-]|I]; [exists x, y; cbn; auto|]. destruct (IH v w I) as (x' & y' & E & I1 & I2). exists x', y'. cbn; auto.
Qed.

Section End_to_end.
  Context (Phi : R -> R) (HPhi : normal_cdf Phi).
  (** The series, raised. *)
  Definition raised (q : R) (sigma alpha : xr) : xr :=
    match log_a_frac Phi q sigma alpha, alpha with Fin x, Fin a => Fin (x + slack a) | v, _ => v end.
  Lemma raised_sound q a : 0 < q < 1 -> 1 < a -> is_integer a = false -> frac_sound Phi raised q a.
  Proof.
    intros Hq Ha I sigmas s E0 F Hs Sum J. pose proof (series Phi HPhi q s a sigmas E0 Hq Hs Ha I F Sum J) as S. unfold raised.
    destruct (log_a_frac Phi q (Fin s) (Fin a)) as [x| | |]; try exact S. eapply Rle_trans; [exact S|]. rewrite exp_plus. apply Rmult_le_compat_l; [left; apply exp_pos|].
    fold (slack a). pose proof (exp_ineq1_le (slack a)). lra.
  Qed.
  Context (fuel : nat) (rel : relation) (orders : list xr) (HO : forall a, In a orders -> order_ok a).
  Notation frac := (log_a_frac Phi).
  Notation mc := (rdp_mc frac fuel rel orders).
  Notation unit := (unit_charge frac fuel rel orders).

  Lemma order_more q s o E : order_ok o -> rdp_bounded E o (poisson_order raised q s o) -> rdp_bounded E o (xadd (poisson_order frac q s o) (Fin (extra o))).
  Proof.
    intros Ho B. destruct (match o with Fin a => is_integer a | _ => true end) eqn:I.
    { assert (Eq : poisson_order raised q s o = poisson_order frac q s o) by (unfold poisson_order, log_a; destruct o as [a| | |]; try contradiction; [rewrite I|]; reflexivity).
      rewrite Eq in B. apply bounded_more; assumption. }
    destruct o as [a| | |]; try discriminate. revert B. unfold poisson_order.
    destruct (Reqb q 0); [apply bounded_more; exact Ho|]. destruct (isinf (Fin a) || xeqb s (Fin 0))%bool; [apply bounded_more; exact Ho|]. destruct (Reqb q 1); [apply bounded_more; exact Ho|].
    unfold log_a. rewrite I. unfold raised. cbn [extra]. rewrite I. unfold xsub. cbn [xneg xadd].
    assert (A1 : 1 < a).
    { cbn in Ho. destruct Ho as [H|<-]; [exact H|]. unfold is_integer in I. rewrite (Rfloor_unique 1 1) in I by lra. rewrite Reqb_true in I by reflexivity. discriminate. }
    destruct (log_a_frac Phi q s (Fin a)) as [x| | |]; cbn [xdiv]; rewrite ?Reqb_false by lra; cbn [xadd].
    - replace ((x + slack a) / (a + - (1))) with (x / (a + - (1)) + slack a / (a - 1)) by (field; lra). auto.
    - rewrite Rltb_false by lra. auto.
    - rewrite Rltb_false by lra. auto.
    - auto.
  Qed.
  Definition extra_for (a : event num) : list xr := map (fun o => Fin (if is_sampled a then extra o else 0)) orders.
  Lemma add_zero a : is_sampled a = false -> length (unit a) = length orders -> vec_add (unit a) (extra_for a) = unit a.
  Proof. intros S L. unfold extra_for. rewrite S. replace (map (fun _ : xr => Fin 0) orders) with (repeat (Fin 0) (length orders)); [apply vec_add_0_r, L|]. clear. induction orders; cbn; congruence. Qed.
  Lemma sampled_curve p e E : composes frac fuel rel orders (PoissonSampled p e) -> (forall o, In o orders -> defined_at o (PoissonSampled p e)) ->
    elementary_event Phi rel (PoissonSampled p e) E -> rdp_curve orders (vec_add (unit (PoissonSampled p e)) (extra_for (PoissonSampled p e))) E.
  Proof.
    intros C HD H. destruct H as (q & E0 & Hq & S & ->). destruct (sampled_of Phi HPhi e E0 S) as (m & s & Ef & Hm & N).
    destruct (relation_eqb rel REPLACE_ONE) eqn:Er.
    { exfalso. revert C. unfold composes. cbn [acc_compose rdp_mc]. rewrite Er. discriminate. }
    assert (X : rdp_poisson_gaussian frac (nval p) (SNum (nval m)) orders = Ok (unit (PoissonSampled p e))).
    { apply (unit_charged frac fuel rel orders); [exact C | intros s0; cbn [rdp_mc]; rewrite Er, Ef; reflexivity | intros u; apply poisson_length]. }
    rewrite Hq, Hm in X. destruct (poisson_vec frac orders _ _ _ X) as (Q01 & _ & F).
    split; [apply ProofPoisson.mix_valid; [exact Q01 | apply N]|]. split.
    { symmetry. apply vec_add_length; [|apply map_length]. clear -F. induction F; cbn; congruence. }
    intros o r I. apply combine_add in I. destruct I as (x & y & -> & I1 & I2). apply in_combine_map in I2. destruct I2 as [Io ->]. cbn [is_sampled].
    assert (Ex : x = poisson_order frac q (Fin s) o).
    { clear -F I1. revert I1. induction F as [|o' x' l v Hx F IH]; [intros []|]. intros [[= <- <-]|I]; [exact Hx | exact (IH I)]. }
    subst x. apply order_more; [apply HO, Io|]. apply (poisson_bounded Phi HPhi); try assumption; [apply HO, Io | exact (HD o Io)|]. intros y -> Fr Q1. apply raised_sound; [exact Q1| |exact Fr].
    specialize (HO _ Io). cbn in HO. destruct HO as [|<-]; [assumption|]. exfalso. exact (HD _ Io eq_refl).
  Qed.

  Lemma sum_extra l : (forall a, In a l -> length (unit a) = length orders) ->
    vec_sum (length orders) (map (fun a => vec_add (unit a) (extra_for a)) l) =
    vec_add (vec_sum (length orders) (map unit l)) (slack_rdp (length (filter is_sampled l)) orders).
  Proof.
    intros L. induction l as [|a l IH].
    - cbn [map vec_sum fold_right filter length]. unfold slack_rdp. rewrite vec_add_0 by apply map_length. clear. induction orders as [|o l IH]; [reflexivity|]. cbn [length repeat map].
      rewrite IH. f_equal. f_equal. destruct o as [a| | |]; try reflexivity. destruct (is_integer a); [reflexivity|]. cbn [INR]. ring.
    - cbn [map]. unfold vec_sum in *. cbn [fold_right]. rewrite IH by (intros b Ib; apply L; right; exact Ib).
      set (u := unit a). set (t := fold_right vec_add (repeat (Fin 0) (length orders)) (map unit l)).
      assert (SE : vec_add (extra_for a) (slack_rdp (length (filter is_sampled l)) orders) = slack_rdp (length (filter is_sampled (a :: l))) orders).
      { clear. unfold extra_for, slack_rdp. cbn [filter]. induction orders as [|o os IH]; [reflexivity|]. cbn [map]. unfold vec_add in *. cbn [combine map fst snd]. rewrite IH. f_equal. cbn [xadd]. f_equal.
        unfold extra. destruct (is_sampled a); cbn [length]; destruct o as [x| | |]; try (destruct (is_integer x)); rewrite ?S_INR; ring. }
      rewrite <- SE, !vec_add_assoc. f_equal. rewrite <- !vec_add_assoc. f_equal. apply vec_add_comm.
  Qed.

  Theorem raised_end_to_end h A E : runs mc (rdp_new orders) h A -> pos_history h -> not_selected h ->
    (forall a o, In a (flat_map parts (map fst h)) -> In o orders -> defined_at o a) ->
    interaction (map (rdp_event Phi rel) (history_atoms h)) E ->
    let rdp := vec_add (acc_state A) (slack_rdp (sampled_events h) orders) in
    rdp_curve orders rdp E /\
    (orders <> [] -> real_orders orders -> forall delta e o, compute_epsilon orders rdp delta = Ok (Fin e, o) -> dp_both E e delta) /\
    (forall eps d o, compute_delta orders rdp (Fin eps) = Ok (d, o) -> exists x, d = Fin x /\ 0 <= x <= 1 /\ dp_both E eps x).
  Proof.
    intros R P NS D I rdp. destruct (rdp_additive frac fuel rel orders h A R P) as [C S].
    assert (K : rdp_curve orders rdp E).
    { assert (ALL : forall b, In b (history_atoms h) -> atom b /\ composes frac fuel rel orders b /\ pos_counts b /\ forall c, In c (parts b) -> In c (flat_map parts (map fst h))).
      { intros b Ib. assert (Cb := C b Ib). unfold history_atoms in Ib. apply in_flat_map in Ib. destruct Ib as ((e & n) & Ie & Ib). apply copies_In in Ib.
        unfold pos_history in P. rewrite Forall_forall in P. destruct (P _ Ie) as [_ Pe]. cbn [fst] in Pe.
        split; [exact (atoms_atom _ _ Ib)|]. split; [exact Cb|]. split; [exact (atoms_counts e b Pe Ib)|]. intros c Ic. apply in_flat_map. exists e.
        split; [apply in_map_iff; exists (e, n); auto | exact (atoms_parts e b c Ib Ic)]. }
      assert (LU : forall a, In a (history_atoms h) -> length (unit a) = length orders).
      { intros a Ia. destruct (ALL a Ia) as (A1 & A2 & _). apply (atom_composes frac fuel rel orders a A1 A2). }
      unfold rdp. rewrite S. unfold sampled_events. rewrite <- sum_extra by exact LU.
      apply interaction_curve; [exact HO| |].
      - apply Forall_forall. intros v. rewrite in_map_iff. intros (a & <- & Ia). apply vec_add_length; [apply LU, Ia | apply map_length].
      - rewrite map_map. eapply interaction_le; [exact I|]. unfold not_selected in NS. clear I S rdp C. induction (history_atoms h) as [|a l IH]; cbn [map]; constructor.
        + intros F [n HF]. destruct (ALL a (or_introl eq_refl)) as (A1 & A2 & A3 & A4). destruct (is_sampled a) eqn:Sa.
          * destruct a; try discriminate. apply sampled_curve; [exact A2| |destruct n; exact HF]. intros o Io. apply D; [apply A4; left; reflexivity | exact Io].
          * rewrite add_zero; [|exact Sa | apply LU; left; reflexivity]. apply (level_curve Phi HPhi frac fuel rel orders HO n); try assumption. intros c o Ic Io. split; [apply D; [apply A4, Ic | exact Io]|].
            intros _. destruct (is_sampled c) eqn:Sc; [|destruct c; try exact Logic.I; discriminate]. rewrite (NS a c (or_introl eq_refl) Ic Sc) in Sc. congruence.
        + apply IH; intros; [apply (NS a0 b); [right|..]; assumption | apply ALL; right; assumption | apply LU; right; assumption]. }
    split; [exact K|]. split.
    - intros Ne Ro delta e o X. eapply epsilon_sound; [exact K | exact Ne | exact Ro | exact X].
    - intros eps d o X. eapply delta_sound; [exact K | | exact X]. intros a Ia. specialize (HO a Ia). destruct a as [a| | |]; try contradiction; [exists a; left | exists 0; right]; reflexivity.
  Qed.
End End_to_end.
