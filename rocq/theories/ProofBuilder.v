From Verif Require Import Base TypesEvent ModelBuilder SpecEvent.

(** ** Event equality *)
Lemma num_eqb_iff a b : num_eqb a b = true <-> nval a = nval b.
Proof.
  unfold num_eqb. destruct a, b; cbn; try (split; congruence);
    match goal with |- context [Reqb ?x ?y] => destruct (Reqb_spec x y) end; split; intros; congruence.
Qed.

Lemma list_eqb_iff {A B} (eq : A -> A -> bool) (f : A -> B) :
  (forall a b, eq a b = true <-> f a = f b) ->
  forall l1 l2, list_eqb eq l1 l2 = true <-> map f l1 = map f l2.
Proof.
  intros H l1; induction l1 as [|a l1 IH]; intros [|b l2]; simpl;
    try (split; intros; congruence).
  rewrite andb_true_iff, H, IH; split; [intros [-> ->]; reflexivity | intros [= -> ->]; auto].
Qed.

Lemma steps_eqb_iff a b : steps_eqb a b = true <-> a = b.
Proof.
  destruct a as [x|l], b as [y|l']; simpl; try (split; intros; congruence).
  - rewrite Z.eqb_eq; split; congruence.
  - rewrite (list_eqb_iff Z.eqb (fun x => x)) by (intros; apply Z.eqb_eq).
    rewrite !map_id; split; congruence.
Qed.

Lemma event_eqb_iff e1 e2 : event_eqb e1 e2 = true <-> value e1 = value e2.
Proof.
  revert e2; induction e1 as [ | | | p k | s | s | e c IH | es IH | q e IH | a b e IH
     | a b e IH | s l | e m s IH | s a b ] using event_ind'; intros e2; destruct e2;
    try (simpl; split; intros; discriminate); try (simpl; split; intros; reflexivity);
    cbn [event_eqb value emap].
  - rewrite andb_true_iff, num_eqb_iff, Z.eqb_eq; split; [intros [-> ->]; reflexivity | intros [= -> ->]; auto].
  - rewrite num_eqb_iff; split; [intros ->; reflexivity | intros [= ->]; auto].
  - rewrite num_eqb_iff; split; [intros ->; reflexivity | intros [= ->]; auto].
  - rewrite andb_true_iff, IH, Z.eqb_eq; unfold value; split;
      [intros [-> ->]; reflexivity | intros [= -> ->]; auto].
  - assert (H : forall es', (fix go (l1 l2 : list (event num)) : bool :=
         match l1, l2 with
         | [], [] => true
         | a :: l1, b :: l2 => event_eqb a b && go l1 l2
         | _, _ => false
         end) es es' = true <-> map (emap nval) es = map (emap nval) es').
    { induction IH as [|x xs Hx Hxs IHxs]; intros [|y ys]; simpl; try (split; intros; congruence).
      rewrite andb_true_iff, Hx, IHxs; unfold value; split;
        [intros [-> ->]; reflexivity | intros [= -> ->]; auto]. }
    rewrite H; split; [intros ->; reflexivity | intros [= ->]; auto].
  - rewrite andb_true_iff, IH, num_eqb_iff; unfold value; split;
      [intros [-> ->]; reflexivity | intros [= -> ->]; auto].
  - rewrite !andb_true_iff, IH, !Z.eqb_eq; unfold value; split;
      [intros [[-> ->] ->]; reflexivity | intros [= -> -> ->]; auto].
  - rewrite !andb_true_iff, IH, !Z.eqb_eq; unfold value; split;
      [intros [[-> ->] ->]; reflexivity | intros [= -> -> ->]; auto].
  - rewrite !andb_true_iff, num_eqb_iff, steps_eqb_iff; split;
      [intros [-> ->]; reflexivity | intros [= -> ->]; auto].
  - rewrite !andb_true_iff, IH, !num_eqb_iff; unfold value; split;
      [intros [[-> ->] ->]; reflexivity | intros [= -> -> ->]; auto].
  - rewrite !andb_true_iff, num_eqb_iff, !(list_eqb_iff num_eqb nval) by apply num_eqb_iff;
      split; [intros [[-> ->] ->]; reflexivity | intros [= -> -> ->]; auto].
Qed.

(** ** Copies *)
Lemma copies_app {A} n m (l : list A) : copies (n + m) l = copies n l ++ copies m l.
Proof. induction n as [|n IH]; simpl; [reflexivity | rewrite IH, app_assoc; reflexivity]. Qed.
Lemma copies_mul {A} n m (l : list A) : copies (n * m) l = copies n (copies m l).
Proof. induction n as [|n IH]; simpl; [reflexivity | rewrite copies_app, IH; reflexivity]. Qed.
Lemma copies_nil {A} n : copies n (@nil A) = [].
Proof. induction n; simpl; auto. Qed.
Lemma copies_1 {A} (l : list A) : copies 1 l = l.
Proof. simpl; apply app_nil_r. Qed.
Lemma copies_Zmul {A} n m (l : list A) : (0 <= n)%Z -> (0 <= m)%Z ->
  copies (Z.to_nat (n * m)) l = copies (Z.to_nat n) (copies (Z.to_nat m) l).
Proof. intros; rewrite Z2Nat.inj_mul, copies_mul by lia; reflexivity. Qed.
Lemma copies_Zadd {A} n m (l : list A) : (0 <= n)%Z -> (0 <= m)%Z ->
  copies (Z.to_nat (n + m)) l = copies (Z.to_nat n) l ++ copies (Z.to_nat m) l.
Proof. intros; rewrite Z2Nat.inj_add, copies_app by lia; reflexivity. Qed.

Lemma history_atoms_app {N} (h1 h2 : list (event N * Z)) :
  history_atoms (h1 ++ h2) = history_atoms h1 ++ history_atoms h2.
Proof. unfold history_atoms; apply flat_map_app. Qed.
Lemma history_atoms_one {N} (e : event N) n :
  history_atoms [(e, n)] = copies (Z.to_nat n) (atoms e).
Proof. unfold history_atoms; simpl; apply app_nil_r. Qed.

Lemma good_countsb_iff {N} (e : event N) n : good_countsb e n = true <-> good_counts e n.
Proof.
  revert n; induction e using event_ind'; intros n; simpl;
    rewrite andb_true_iff, Z.leb_le; try tauto.
  rewrite IHe; tauto.
Qed.

Lemma good_countsb_value (e : event num) n : good_countsb (value e) n = good_countsb e n.
Proof.
  revert n; induction e using event_ind'; intros n; try reflexivity.
  cbn [value emap good_countsb]. fold (value e). rewrite IHe; reflexivity.
Qed.

(** ** Effect of compose *)
Notation vruns := by_value.

Lemma rev_eq_cons {A} (l : list A) x r : rev l = x :: r -> l = rev r ++ [x].
Proof. intros H; rewrite <- (rev_involutive l), H; reflexivity. Qed.

Lemma push_count_atoms l e n :
  Forall run_ok l -> (1 <= n)%Z ->
  history_atoms (vruns (push_count l e n)) =
  history_atoms (vruns l) ++ copies (Z.to_nat n) (atoms (value e)).
Proof.
  intros Hl Hn; unfold push_count.
  destruct (rev l) as [|[e' m] r] eqn:E.
  - rewrite <- (rev_involutive l), E. unfold by_value; cbn [rev map fst snd]. apply history_atoms_one.
  - apply rev_eq_cons in E; subst l.
    apply Forall_app in Hl; destruct Hl as [_ Hm]; inversion Hm as [|x1 x2 [H1 _] _]; subst; simpl in H1.
    destruct (event_eqb e' e) eqn:Ee.
    + apply event_eqb_iff in Ee. unfold by_value; rewrite !map_app, !history_atoms_app; cbn [map fst snd].
      rewrite <- Ee. rewrite !history_atoms_one, copies_Zadd, app_assoc by lia. reflexivity.
    + unfold by_value; rewrite !map_app, !history_atoms_app; cbn [map fst snd].
      rewrite !history_atoms_one; reflexivity.
Qed.

Lemma builder_compose_spec b e n :
  Forall run_ok (event_counts b) ->
  if good_countsb e n
  then snd (builder_compose b e n) = Ok tt /\
       history_atoms (vruns (event_counts (fst (builder_compose b e n)))) =
       history_atoms (vruns (event_counts b)) ++ copies (Z.to_nat n) (atoms (value e))
  else builder_compose b e n = (b, Err ValueError).
Proof.
  intros Hb; revert n; induction e as [ | | | p k | s | s | e c IH | es IH | q e IH | a b0 e IH
     | a b0 e IH | s l | e m s IH | s a b0 ] using event_ind'; intros n;
    cbn [good_countsb builder_compose];
    replace (n <? 1)%Z with (negb (1 <=? n)%Z) by (rewrite Z.leb_antisym, negb_involutive; reflexivity);
    destruct (Z.leb_spec 1 n); cbn [andb negb]; try reflexivity;
    try (cbn [fst snd event_counts]; split; [reflexivity|]; apply push_count_atoms; [exact Hb | lia]).
  - split; [reflexivity|]. cbn [value emap atoms fst]. rewrite copies_nil, app_nil_r; reflexivity.
  - specialize (IH (n * c)%Z). destruct (good_countsb e (n * c)) eqn:Eg; [|exact IH].
    assert (Hc : (1 <= n * c)%Z).
    { apply good_countsb_iff in Eg; destruct e; simpl in Eg; tauto. }
    destruct IH as [IH1 IH2]; split; [exact IH1|]. rewrite IH2.
    cbn [value emap atoms]. rewrite <- copies_Zmul by nia. reflexivity.
Qed.

Lemma builder_compose_err b e n b' x : builder_compose b e n = (b', Err x) -> b' = b.
Proof.
  revert n; induction e using event_ind'; intros n; cbn [builder_compose];
    destruct (n <? 1)%Z; try (intros [= -> _]; reflexivity); try discriminate.
  apply IHe.
Qed.

(** ** Invariant *)
Lemma neighbours_differ_snoc l r :
  neighbours_differ l ->
  (forall l0 r0, l = l0 ++ [r0] -> value (fst r0) <> value (fst r)) ->
  neighbours_differ (l ++ [r]).
Proof.
  induction l as [|a l IH]; simpl; intros H Hl; [exact I|].
  destruct l as [|a' l].
  - simpl; split; [apply (Hl [] a); reflexivity | exact I].
  - simpl in *. destruct H as [H1 H2]; split; [exact H1|].
    apply IH; [exact H2|]. intros l0 r0 El; apply (Hl (a :: l0)). rewrite El; reflexivity.
Qed.

Lemma neighbours_differ_app_inv l1 l2 : neighbours_differ (l1 ++ l2) -> neighbours_differ l1.
Proof.
  induction l1 as [|a l1 IH]; simpl; [auto|]. destruct l1 as [|a' l1]; simpl in *; [auto|].
  intros [H1 H2]; split; [exact H1 | apply IH; exact H2].
Qed.

Lemma neighbours_differ_last l r r' :
  value (fst r) = value (fst r') -> neighbours_differ (l ++ [r]) -> neighbours_differ (l ++ [r']).
Proof.
  intros Hv. induction l as [|a l IH]; simpl; [auto|].
  destruct l as [|a' l]; simpl in *.
  - rewrite Hv; auto.
  - intros [H1 H2]; split; [exact H1 | apply IH; exact H2].
Qed.

Lemma push_count_ok l e n :
  Forall run_ok l -> neighbours_differ l -> run_ok (e, n) ->
  Forall run_ok (push_count l e n) /\ neighbours_differ (push_count l e n).
Proof.
  intros Hl Hd Hr; unfold push_count.
  destruct (rev l) as [|[e' m] r] eqn:E.
  - split; [constructor; auto | exact I].
  - apply rev_eq_cons in E; subst l.
    apply Forall_app in Hl; destruct Hl as [Hl1 Hl2].
    destruct (event_eqb e' e) eqn:Ee.
    + apply event_eqb_iff in Ee. split.
      * apply Forall_app; split; [exact Hl1|]. constructor; [|constructor].
        inversion Hl2 as [|x1 x2 [H1 _] _]; subst. destruct Hr as [H2 [H3 H4]].
        split; simpl in *; [lia | auto].
      * eapply neighbours_differ_last; [|exact Hd]. simpl; exact Ee.
    + split.
      * apply Forall_app; split; [apply Forall_app; auto | constructor; auto].
      * apply neighbours_differ_snoc; [exact Hd|].
        intros l0 r0 El. apply app_inj_tail in El; destruct El as [_ <-]; simpl.
        intros Hv. apply event_eqb_iff in Hv; congruence.
Qed.

Lemma core_idem {N} (e : event N) : core (core e) = core e.
Proof. induction e using event_ind'; simpl; auto. Qed.

Definition builder_inv (b : builder) : Prop :=
  Forall run_ok (event_counts b) /\ neighbours_differ (event_counts b) /\
  match composed_event b with None => True | Some e => e = composed_of (event_counts b) end.

Lemma builder_compose_inv b e n : builder_inv b -> builder_inv (fst (builder_compose b e n)).
Proof.
  intros Hb; revert n; induction e using event_ind'; intros n; cbn [builder_compose];
    destruct (Z.ltb_spec n 1); cbn [fst]; auto;
    destruct Hb as [H1 [H2 _]].
  all: try match goal with |- builder_inv (mkBuilder (push_count _ ?e _) None) =>
         destruct (push_count_ok (event_counts b) e n H1 H2) as [H3 H4];
           [repeat split; simpl; [lia | discriminate] | split; [exact H3 | split; [exact H4 | exact I]]] end.
Qed.

Lemma builder_step_inv b c : builder_inv b -> builder_inv (builder_step b c).
Proof.
  intros Hb; destruct c as [ea na|]; simpl.
  - destruct ea as [e|]; [|exact Hb]. destruct na as [n|]; [|exact Hb].
    apply builder_compose_inv; exact Hb.
  - unfold builder_build. destruct Hb as [H1 [H2 H3]].
    destruct (composed_event b) eqn:E; simpl.
    + split; [exact H1|split; [exact H2|]]. rewrite E; exact H3.
    + split; [exact H1|split; [exact H2|]]. reflexivity.
Qed.

Lemma fold_left_inv {A B} (P : A -> Prop) (f : A -> B -> A) :
  (forall a b, P a -> P (f a b)) -> forall l a, P a -> P (fold_left f l a).
Proof. intros H l; induction l as [|x l IH]; simpl; auto. Qed.

Lemma builder_run_inv cs : builder_inv (builder_run cs).
Proof.
  unfold builder_run; apply (fold_left_inv builder_inv); [apply builder_step_inv|]. split; [constructor|split; simpl; auto].
Qed.

Lemma build_eq b : builder_inv b -> snd (builder_build b) = composed_of (event_counts b).
Proof.
  intros [_ [_ H]]; unfold builder_build. destruct (composed_event b); simpl; auto.
Qed.

(** ** Atoms of the built event *)
Lemma atoms_run_event r :
  (1 <= snd r)%Z -> atoms (value (run_event r)) = copies (Z.to_nat (snd r)) (atoms (value (fst r))).
Proof.
  destruct r as [e n]; simpl. destruct (Z.eqb_spec n 1) as [-> | Hn]; [rewrite copies_1; reflexivity | reflexivity].
Qed.

Lemma atoms_composed_of l : Forall run_ok l ->
  atoms (value (composed_of l)) = history_atoms (vruns l).
Proof.
  intros Hl. unfold composed_of.
  assert (H : flat_map atoms (map value (map run_event l)) = history_atoms (vruns l)).
  { unfold history_atoms, by_value. induction Hl as [|r l Hr Hl IH]; simpl; [reflexivity|].
    rewrite atoms_run_event by apply Hr. rewrite IH; reflexivity. }
  rewrite <- H. destruct (map run_event l) as [|e1 [|e2 es]] eqn:E; simpl;
    rewrite ?app_nil_r; reflexivity.
Qed.

Lemma builder_step_counts b c :
  builder_inv b ->
  history_atoms (vruns (event_counts (builder_step b c))) =
  history_atoms (vruns (event_counts b)) ++ history_atoms (vruns (accepted_call c)).
Proof.
  intros [H1 [H2 H3]]. destruct c as [[e|] [n|]|]; simpl; rewrite ?app_nil_r; auto.
  - pose proof (builder_compose_spec b e n H1) as H.
    destruct (good_countsb e n); simpl.
    + destruct H as [_ H]; rewrite H, app_nil_r; reflexivity.
    + rewrite H, app_nil_r; reflexivity.
  - unfold builder_build; destruct (composed_event b); reflexivity.
Qed.

Lemma builder_run_counts cs :
  history_atoms (vruns (event_counts (builder_run cs))) = history_atoms (vruns (accepted cs)).
Proof.
  unfold builder_run.
  assert (H : forall b, builder_inv b ->
    history_atoms (vruns (event_counts (fold_left builder_step cs b))) =
    history_atoms (vruns (event_counts b)) ++ history_atoms (vruns (accepted cs))).
  { induction cs as [|c cs IH]; intros b Hb; simpl.
    - rewrite app_nil_r; reflexivity.
    - rewrite IH by (apply builder_step_inv; exact Hb).
      rewrite builder_step_counts by exact Hb.
      unfold by_value at 5; rewrite map_app, history_atoms_app, app_assoc; reflexivity. }
  rewrite H; [reflexivity | apply (builder_run_inv [])].
Qed.

Lemma builder_faithful cs :
  atoms (value (snd (builder_build (builder_run cs)))) = history_atoms (vruns (accepted cs)).
Proof.
  rewrite build_eq by apply builder_run_inv.
  rewrite atoms_composed_of by apply builder_run_inv. apply builder_run_counts.
Qed.

Lemma builder_call_result b ea na :
  builder_inv b ->
  snd (builder_compose_arg b ea na) =
    match ea, na with
    | EventObj e, IntCount n => if good_countsb e n then Ok tt else Err ValueError
    | _, _ => Err TypeError
    end.
Proof.
  intros [H1 _]. destruct ea as [e|]; destruct na as [n|]; simpl; auto.
  pose proof (builder_compose_spec b e n H1) as H.
  destruct (good_countsb e n); [apply H | rewrite H; reflexivity].
Qed.

Lemma builder_rejected b ea na b' x :
  builder_compose_arg b ea na = (b', Err x) -> b' = b.
Proof.
  destruct ea as [e|]; destruct na as [n|]; simpl; try (intros [= -> _]; reflexivity).
  apply builder_compose_err.
Qed.

(** ** Canonical form *)
Lemma builder_canonical cs : canonical (snd (builder_build (builder_run cs))).
Proof.
  rewrite build_eq by apply builder_run_inv.
  destruct (builder_run_inv cs) as [H1 [H2 _]].
  exists (event_counts (builder_run cs)); split; [exact H1|split; [exact H2|]].
  unfold composed_of.
  assert (E : forall l, map run_event l = map write_run l).
  { intros l; apply map_ext; intros [e n]; reflexivity. }
  rewrite E. destruct (event_counts (builder_run cs)) as [|r1 [|r2 rs]]; reflexivity.
Qed.

(** ** The cache is invisible *)
Lemma builder_compose_counts b1 b2 e n :
  event_counts b1 = event_counts b2 ->
  event_counts (fst (builder_compose b1 e n)) = event_counts (fst (builder_compose b2 e n)).
Proof.
  intros H; revert n; induction e using event_ind'; intros n; cbn [builder_compose];
    destruct (n <? 1)%Z; cbn [fst event_counts]; auto; rewrite H; reflexivity.
Qed.

Lemma builder_cache_invisible cs :
  snd (builder_build (builder_run cs)) = snd (builder_build (builder_run (filter not_build cs))).
Proof.
  rewrite !build_eq by apply builder_run_inv. f_equal. unfold builder_run.
  assert (H : forall b1 b2, event_counts b1 = event_counts b2 ->
    event_counts (fold_left builder_step cs b1) =
    event_counts (fold_left builder_step (filter not_build cs) b2)).
  { induction cs as [|c cs IH]; intros b1 b2 E; simpl; [exact E|].
    destruct c as [ea na|]; simpl.
    - apply IH. destruct ea as [e|]; [|exact E]. destruct na as [n|]; [|exact E].
      simpl. apply builder_compose_counts; exact E.
    - apply IH. unfold builder_build; destruct (composed_event b1); exact E. }
  apply H; reflexivity.
Qed.

(** ** NoOp exactly when nothing but NoOps was composed *)
Lemma push_count_nonnil l e n : push_count l e n <> [].
Proof.
  unfold push_count. destruct (rev l) as [|[e' m] r]; [discriminate|].
  destruct (event_eqb e' e); intros H; apply app_eq_nil in H; destruct H; discriminate.
Qed.

Lemma builder_compose_nonnil b e n :
  good_countsb e n = true ->
  (event_counts (fst (builder_compose b e n)) = [] <->
   core e = NoOp /\ event_counts b = []).
Proof.
  revert n; induction e using event_ind'; intros n Hg; cbn [builder_compose good_countsb] in *;
    apply andb_true_iff in Hg; destruct Hg as [Hn Hg]; apply Z.leb_le in Hn;
    (destruct (Z.ltb_spec n 1); [lia|]); cbn [fst event_counts core].
  all: try (split; [intros Hx; exfalso; eapply push_count_nonnil; exact Hx | intros [Hx _]; discriminate]).
  - tauto.
  - apply IHe; exact Hg.
Qed.

Lemma builder_noop cs :
  snd (builder_build (builder_run cs)) = NoOp <->
  Forall (fun r => core (fst r) = NoOp) (accepted cs).
Proof.
  rewrite build_eq by apply builder_run_inv.
  destruct (builder_run_inv cs) as [H1 [_ _]].
  assert (E0 : composed_of (event_counts (builder_run cs)) = NoOp <-> event_counts (builder_run cs) = []).
  { unfold composed_of. destruct H1 as [|r l Hr Hl]; simpl; [tauto|].
    split; [|discriminate]. destruct l as [|r' l]; simpl; [|discriminate].
    destruct r as [e n]; destruct Hr as [_ [_ Hr]]; simpl in *.
    destruct (n =? 1)%Z; [intros; contradiction | discriminate]. }
  rewrite E0. clear E0 H1. unfold builder_run.
  assert (H : forall b, event_counts (fold_left builder_step cs b) = [] <->
     event_counts b = [] /\ Forall (fun r => core (fst r) = NoOp) (accepted cs)).
  { induction cs as [|c cs IH]; intros b; simpl; [intuition auto|].
    rewrite IH, Forall_app. clear IH.
    destruct c as [ea na|]; simpl.
    - destruct ea as [e|]; [|intuition auto].
      destruct na as [n|]; [|intuition auto]. simpl.
      destruct (good_countsb e n) eqn:Eg.
      + rewrite (builder_compose_nonnil b e n Eg). split.
        * intros [[Ha Hb] Hc]; repeat split; auto.
        * intros [Ha [Hb Hc]]; inversion Hb; subst; auto.
      + assert (Ec : fst (builder_compose b e n) = b).
        { destruct (builder_compose b e n) as [b' [[]|x]] eqn:Ec; simpl;
            [|eapply builder_compose_err; exact Ec].
          exfalso. revert n Eg Ec. clear. induction e using event_ind'; intros n;
            cbn [builder_compose good_countsb];
            replace (n <? 1)%Z with (negb (1 <=? n)%Z) by (rewrite Z.leb_antisym, negb_involutive; reflexivity);
            destruct (1 <=? n)%Z; cbn [andb negb]; try discriminate; apply IHe. }
        rewrite Ec. intuition auto.
    - unfold builder_build; destruct (composed_event b); simpl; intuition auto. }
  rewrite H. simpl. tauto.
Qed.
