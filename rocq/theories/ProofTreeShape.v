(** The shape of the trees of the clustering. *)
From Verif Require Import Base XReal Exn TypesCluster ModelCluster SpecCluster.

Definition has (i : nat) (l : list point) : bool := existsb (fun p : point => Nat.eqb (fst p) i) l.
Definition occ (i : nat) (l : list node) : nat := List.length (filter (fun n => has i (nonprivate_points n)) l).
Lemma occ_app i l l' : occ i (l ++ l') = (occ i l + occ i l')%nat.
Proof. unfold occ. rewrite filter_app, app_length. reflexivity. Qed.
Lemma length_filter {A} (f : A -> bool) l : (List.length (filter f l) <= List.length l)%nat.
Proof. induction l as [|a l IH]; cbn; [lia|]. destruct (f a); cbn; lia. Qed.
Lemma filter_swap {A} (f g : A -> bool) l : filter f (filter g l) = filter g (filter f l).
Proof. induction l as [|a l IH]; cbn; [reflexivity|]. destruct (g a) eqn:G, (f a) eqn:F; cbn; rewrite ?G, ?F, IH; reflexivity. Qed.
Lemma occ_filter i f l : (occ i (filter f l) <= occ i l)%nat.
Proof. unfold occ. rewrite filter_swap. apply length_filter. Qed.
Lemma occ_pos i l : (1 <= occ i l)%nat -> exists n, In n l /\ has i (nonprivate_points n) = true.
Proof.
  unfold occ. destruct (filter _ l) as [|n r] eqn:E; [cbn; lia|]. intros _. exists n. apply (filter_In (fun n => has i (nonprivate_points n))). rewrite E. left. reflexivity.
Qed.
Lemma occ_zero i l : (forall n, In n l -> has i (nonprivate_points n) = false) -> occ i l = 0%nat.
Proof.
  induction l as [|a l IH]; [reflexivity|]. intros H. unfold occ in *. cbn [filter]. rewrite (H a (or_introl eq_refl)). apply IH. intros n Hn. apply H. right. exact Hn.
Qed.
Lemma occ_unique i l a b : (occ i l <= 1)%nat -> In a l -> In b l -> has i (nonprivate_points a) = true -> has i (nonprivate_points b) = true -> a = b.
Proof.
  intros H A B HA HB. unfold occ in H. set (F := filter _ l) in H.
  assert (A' : In a F) by (apply filter_In; auto). assert (B' : In b F) by (apply filter_In; auto).
  destruct F as [|x [|y r]]; [destruct A' | | cbn in H; lia]. destruct A' as [<-|[]], B' as [<-|[]]. reflexivity.
Qed.
Lemma counts_app i s l : counts_with i (s ++ l) = (counts_with i s + counts_with i l)%nat.
Proof. unfold counts_with. rewrite filter_app, app_length. reflexivity. Qed.
Lemma sums_app i s l : sums_with i (s ++ l) = (sums_with i s + sums_with i l)%nat.
Proof. unfold sums_with. rewrite filter_app, app_length. reflexivity. Qed.

Lemma has_In i l : has i l = true <-> In i (names l).
Proof.
  unfold has, names. rewrite existsb_exists, in_map_iff. split.
  - intros (p & Hp & E). apply Nat.eqb_eq in E. exists p. auto.
  - intros (p & <- & Hp). exists p. split; [exact Hp | apply Nat.eqb_refl].
Qed.
Lemma has_filter i f l : has i (filter f l) = true -> has i l = true.
Proof. unfold has. rewrite !existsb_exists. intros (p & Hp & E). apply filter_In in Hp. exists p. tauto. Qed.
Lemma names_filter f (l : list point) : NoDup (names l) -> NoDup (names (filter f l)).
Proof.
  induction l as [|p l IH]; [trivial|]. cbn [filter names map]. intros H. inversion H as [|? ? N D]; subst.
  destruct (f p); [|auto]. cbn [map]. constructor; [|auto]. intros C. apply N. apply in_map_iff in C. destruct C as (q & E & Q). apply filter_In in Q. apply in_map_iff. exists q. tauto.
Qed.
(** A row is on exactly one side. *)
Lemma split_has i f (l : list point) : NoDup (names l) ->
  ((if has i (filter f l) then 1 else 0) + (if has i (filter (fun p => negb (f p)) l) then 1 else 0) = (if has i l then 1 else 0))%nat.
Proof.
  induction l as [|p l IH]; [reflexivity|]. cbn [names map]. intros H. inversion H as [|? ? N D]; subst. specialize (IH D).
  cbn [filter]. destruct (Nat.eqb (fst p) i) eqn:E.
  - apply Nat.eqb_eq in E. assert (Z : has i l = false).
    { destruct (has i l) eqn:E'; [|reflexivity]. apply has_In in E'. rewrite E in N. contradiction. }
    rewrite Z in IH. destruct (f p); cbn [negb has existsb]; rewrite E, Nat.eqb_refl; cbn [orb]; change (existsb (fun p : point => Nat.eqb (fst p) i)) with (has i);
      destruct (has i (filter f l)), (has i (filter (fun p => negb (f p)) l)); lia.
  - destruct (f p); cbn [negb has existsb]; rewrite E; cbn [orb]; exact IH.
Qed.

Section Shape.
  Context (count_of : nat -> list point -> Z) (projections : nat -> vec) (tp : tree_param).
  Notation children := (children count_of projections tp).
  Notation all_children := (all_children count_of projections tp).
  Notation get_next_level := (get_next_level count_of projections tp).
  Notation filter_branching_nodes := (filter_branching_nodes tp).
  Notation grow := (grow count_of projections tp).

  Definition distinct (n : node) : Prop := NoDup (names (nonprivate_points n)).
  Definition child (p c : node) : Prop :=
    (exists b, hash_prefix c = hash_prefix p ++ [b]) /\ (forall q, In q (nonprivate_points c) -> In q (nonprivate_points p)) /\ (distinct p -> distinct c).

  Lemma children_shape n s c s' : children n s = Ok (c, s') ->
    exists l, s' = s ++ l /\ forallb is_count l = true /\ (forall x, In x c -> child n x) /\
      (distinct n -> forall i, occ i c = (if has i (nonprivate_points n) then 1 else 0)%nat /\ counts_with i l = occ i c).
  Proof.
    unfold ModelCluster.children, group_by_next_hash, new_node, get_private_count. destruct (_ <=? _)%Z; [discriminate|]. cbn [bind]. intros [= <- <-].
    eexists. split; [rewrite <- app_assoc; reflexivity|]. split; [reflexivity|]. split.
    - intros x [<-|[<-|[]]]; (split; [eexists; reflexivity|]; split; [intros q; cbn; intros Q; apply filter_In in Q; tauto | apply names_filter]).
    - intros D i. set (v := projections _).
      assert (E : filter (fun p : point => Rltb (dot (snd p) v) 0) (nonprivate_points n) = filter (fun p : point => negb (Rleb 0 (dot (snd p) v))) (nonprivate_points n)).
      { apply filter_ext. intros p. destruct (Rleb_spec 0 (dot (snd p) v)), (Rltb_spec (dot (snd p) v) 0); cbn; try reflexivity; lra. }
      rewrite E. rewrite <- (split_has i (fun p : point => Rleb 0 (dot (snd p) v)) _ D).
      unfold occ, counts_with, uses. cbn [filter is_count nonprivate_points rows_of andb app]. fold (has i).
      change (existsb (fun p : point => Nat.eqb (fst p) i)) with (has i).
      split; destruct (has i (filter (fun p : point => Rleb 0 (dot (snd p) v)) (nonprivate_points n))), (has i (filter (fun p : point => negb (Rleb 0 (dot (snd p) v))) (nonprivate_points n))); reflexivity.
  Qed.

  Lemma all_children_shape l s c s' : all_children l s = Ok (c, s') ->
    exists r, s' = s ++ r /\ forallb is_count r = true /\ (forall x, In x c -> exists p, In p l /\ child p x) /\
      ((forall n, In n l -> distinct n) -> forall i, occ i c = occ i l /\ counts_with i r = occ i c).
  Proof.
    revert s c s'. induction l as [|n l IH]; intros s c s'; cbn [ModelCluster.all_children].
    - intros [= <- <-]. exists []. rewrite app_nil_r. repeat split; auto. intros x [].
    - intros H. apply bind_Ok in H. destruct H as ((c1 & s1) & H1 & H). apply bind_Ok in H. destruct H as ((c2 & s2) & H2 & H). injection H as <- <-.
      destruct (children_shape _ _ _ _ H1) as (l1 & -> & C1 & K1 & O1). destruct (IH _ _ _ H2) as (l2 & -> & C2 & K2 & O2).
      exists (l1 ++ l2). rewrite app_assoc. split; [reflexivity|]. split; [rewrite forallb_app, C1, C2; reflexivity|]. split.
      + intros x Hx. apply in_app_or in Hx. destruct Hx as [Hx|Hx].
        * exists n. split; [left; reflexivity | apply K1, Hx].
        * destruct (K2 x Hx) as (p & Hp & Q). exists p. split; [right; exact Hp | exact Q].
      + intros D i. destruct (O1 (D n (or_introl eq_refl)) i) as (A & B). destruct (O2 (fun n Hn => D n (or_intror Hn)) i) as (A' & B').
        assert (One : occ i (n :: l) = ((if has i (nonprivate_points n) then 1 else 0) + occ i l)%nat)
          by (unfold occ; cbn [filter]; destruct (has i (nonprivate_points n)); reflexivity).
        rewrite occ_app, counts_app, One. lia.
  Qed.

  Lemma next_level_shape l s c s' : get_next_level l s = Ok (c, s') ->
    exists r, s' = s ++ r /\ forallb is_count r = true /\ (forall x, In x c -> (min_node tp <= private_count x)%Z /\ exists p, In p l /\ child p x) /\
      ((forall n, In n l -> distinct n) -> forall i, (occ i c <= occ i l /\ counts_with i r = occ i l)%nat).
  Proof.
    unfold ModelCluster.get_next_level. intros H. apply bind_Ok in H. destruct H as ((c1 & s1) & H1 & H). injection H as <- <-.
    destruct (all_children_shape _ _ _ _ H1) as (r & -> & C & K & O). exists r. split; [reflexivity|]. split; [exact C|]. split.
    - intros x Hx. apply filter_In in Hx. destruct Hx as [Hx Hc]. split; [apply Z.leb_le, Hc | apply K, Hx].
    - intros D i. destruct (O D i) as [E E']. split; [|congruence]. rewrite <- E. apply occ_filter.
  Qed.

  (** The levels of a tree, from level [k] on. *)
  Inductive chain : nat -> list (list node) -> Prop :=
  | chain_one k l : l <> [] -> (forall n, In n l -> List.length (hash_prefix n) = k) -> chain k [l]
  | chain_cons k l l' r : l <> [] -> (forall n, In n l -> List.length (hash_prefix n) = k) ->
      (forall c, In c l' -> exists p, In p l /\ child p c) -> (forall i, (occ i l' <= occ i l)%nat) ->
      chain (S k) (l' :: r) -> chain k (l :: l' :: r).

  Lemma grow_shape n k level s rest s' : grow n level s = Ok (rest, s') -> level <> [] ->
    (forall x, In x level -> List.length (hash_prefix x) = k) -> (forall x, In x level -> distinct x) ->
    exists r, s' = s ++ r /\ forallb is_count r = true /\ chain k (level :: rest) /\
      (forall i, (counts_with i r <= n * occ i level)%nat) /\
      (forall l x, In l rest -> In x l -> (min_node tp <= private_count x)%Z).
  Proof.
    revert k level s rest s'. induction n as [|n IH]; intros k level s rest s'; cbn [ModelCluster.grow].
    - intros [= <- <-] N L D. exists []. rewrite app_nil_r. repeat split; auto; [constructor; assumption | intros l x []].
    - intros H N L D. apply bind_Ok in H. destruct H as ((next & s1) & H1 & H).
      destruct (next_level_shape _ _ _ _ H1) as (r1 & -> & C1 & K1 & O1).
      assert (D1 : forall x, In x (filter_branching_nodes level) -> distinct x) by (intros x Hx; apply filter_In in Hx; apply D; tauto).
      assert (F : forall i, (occ i (filter_branching_nodes level) <= occ i level)%nat) by (intros; apply occ_filter).
      destruct next as [|c0 cs] eqn:EN.
      + injection H as <- <-. exists r1. split; [reflexivity|]. split; [exact C1|]. split; [constructor; assumption|]. split; [|intros l x []].
        intros i. destruct (O1 D1 i) as [_ E]. specialize (F i). rewrite E. nia.
      + rewrite <- EN in *. assert (N' : next <> []) by (rewrite EN; discriminate). clear c0 cs EN.
        apply bind_Ok in H. destruct H as ((rest' & s2) & H2 & H). injection H as <- <-.
        assert (K : forall x, In x next -> exists p, In p level /\ child p x).
        { intros x Hx. destruct (K1 x Hx) as (_ & p & Hp & Q). apply filter_In in Hp. exists p. tauto. }
        assert (O : forall i, (occ i next <= occ i level)%nat) by (intros i; destruct (O1 D1 i) as [E _]; specialize (F i); lia).
        destruct (IH (S k) _ _ _ _ H2) as (r2 & -> & C2 & Ch & B & M).
        * exact N'.
        * intros x Hx. destruct (K x Hx) as (p & Hp & (b & ->) & _). rewrite app_length, (L p Hp). cbn. lia.
        * intros x Hx. destruct (K x Hx) as (p & Hp & _ & _ & Q). apply Q, D, Hp.
        * exists (r1 ++ r2). rewrite app_assoc. split; [reflexivity|]. split; [rewrite forallb_app, C1, C2; reflexivity|]. split; [|split].
          -- constructor; assumption.
          -- intros i. rewrite counts_app. destruct (O1 D1 i) as [_ E]. specialize (F i). specialize (O i). specialize (B i). rewrite E. nia.
          -- intros l x [<-|Hl] Hx; [apply K1, Hx | apply (M l x Hl Hx)].
  Qed.

  Lemma prefix_eqb_true p q : prefix_eqb p q = true <-> p = q.
  Proof. unfold prefix_eqb. destruct (list_eq_dec bool_dec p q); split; congruence. Qed.

  Lemma leaves_occ full i k tree : chain k tree -> (exists pre, full = pre ++ tree /\ List.length pre = k) ->
    (occ i (hd [] tree) <= 1)%nat -> (occ i (flat_map (filter (is_leaf full)) tree) <= occ i (hd [] tree))%nat.
  Proof.
    intros C. induction C as [k l N L | k l l' r N L K O C IH]; intros (pre & E & P) Hd; cbn [hd flat_map] in *.
    - rewrite app_nil_r. apply occ_filter.
    - rewrite occ_app. specialize (O i).
      assert (H : (occ i (flat_map (filter (is_leaf full)) (l' :: r)) <= occ i l')%nat).
      { apply IH; [|lia]. exists (pre ++ [l]). rewrite <- app_assoc. split; [exact E | rewrite app_length; cbn; lia]. }
      cbn [flat_map] in H. pose proof (occ_filter i (is_leaf full) l) as F.
      destruct (le_lt_dec (occ i l') 0) as [Z|Z]; [lia|].
      enough (occ i (filter (is_leaf full) l) = 0)%nat by lia.
      destruct (occ_pos i l' ltac:(lia)) as (c & Hc & Ic). destruct (K c Hc) as (p & Hp & (b & Eb) & Inc & _).
      assert (Ip : has i (nonprivate_points p) = true).
      { apply has_In in Ic. apply has_In. apply in_map_iff in Ic. destruct Ic as (q & Eq & Q). apply in_map_iff. exists q. split; [exact Eq | apply Inc, Q]. }
      apply occ_zero. intros n Hn. apply filter_In in Hn. destruct Hn as [Hn Lf]. destruct (has i (nonprivate_points n)) eqn:In'; [|reflexivity].
      exfalso. assert (n = p) as -> by (apply (occ_unique i l); auto).
      unfold is_leaf in Lf. rewrite (L p Hp) in Lf.
      replace (List.length full - 1 <? S k)%nat with false in Lf
        by (symmetry; apply Nat.ltb_ge; rewrite E, app_length; cbn; lia).
      apply negb_true_iff in Lf. rewrite <- not_true_iff_false in Lf. apply Lf. apply existsb_exists. exists c. split.
      + rewrite E, app_nth2 by lia. replace (S k - List.length pre)%nat with 1%nat by lia. exact Hc.
      + apply prefix_eqb_true. rewrite Eb, removelast_last. reflexivity.
  Qed.

  Lemma leaves_nonempty full k tree : chain k tree -> (exists pre, full = pre ++ tree /\ List.length pre = k) ->
    flat_map (filter (is_leaf full)) tree <> [].
  Proof.
    intros C. induction C as [k l N L | k l l' r N L K O C IH]; intros (pre & E & P).
    - destruct l as [|n l]; [congruence|]. cbn [flat_map filter]. unfold is_leaf at 1. rewrite (L n (or_introl eq_refl)).
      replace (List.length full - 1 <? S k)%nat with true; [discriminate|]. symmetry. apply Nat.ltb_lt. rewrite E, app_length. cbn. lia.
    - assert (H : flat_map (filter (is_leaf full)) (l' :: r) <> []).
      { apply IH. exists (pre ++ [l]). rewrite <- app_assoc. split; [exact E | rewrite app_length; cbn; lia]. }
      intros Z. apply H. change (filter (is_leaf full) l ++ flat_map (filter (is_leaf full)) (l' :: r) = []) in Z. apply app_eq_nil in Z. tauto.
  Qed.

  Lemma averages_shape (sum_of : nat -> list point -> vec) l s a s' : averages sum_of l s = Ok (a, s') ->
    exists r, s' = s ++ r /\ forallb (fun x => negb (is_count x)) r = true /\ map rows_of r = map nonprivate_points l /\ List.length a = List.length l.
  Proof.
    revert s a s'. induction l as [|n l IH]; intros s a s'; cbn [averages].
    - intros [= <- <-]. exists []. rewrite app_nil_r. auto.
    - unfold get_private_average. destruct (_ <? 1)%Z; [discriminate|]. cbn [bind]. intros H. apply bind_Ok in H. destruct H as ((a1 & s1) & H1 & H). injection H as <- <-.
      destruct (IH _ _ _ H1) as (r & -> & C & M & Le). eexists (_ :: r). rewrite <- app_assoc. split; [reflexivity|]. cbn [forallb is_count negb map rows_of andb List.length]. rewrite M, Le. auto.
  Qed.
  Lemma averages_total (sum_of : nat -> list point -> vec) l s : (forall n, In n l -> (1 <= private_count n)%Z) -> exists a s', averages sum_of l s = Ok (a, s').
  Proof.
    revert s. induction l as [|n l IH]; intros s H; cbn [averages]; [eauto|].
    unfold get_private_average. pose proof (H n (or_introl eq_refl)). destruct (Z.ltb_spec (private_count n) 1); [lia|]. cbn [bind].
    edestruct IH as (a & s' & ->); [intros; apply H; right; assumption|]. cbn [bind]. eauto.
  Qed.

  Lemma all_children_total l s : (forall n, In n l -> (Z.of_nat (List.length (hash_prefix n)) < max_depth tp)%Z) -> exists c s', all_children l s = Ok (c, s').
  Proof.
    revert s. induction l as [|n l IH]; intros s H; cbn [ModelCluster.all_children]; [eauto|].
    unfold ModelCluster.children, group_by_next_hash. pose proof (H n (or_introl eq_refl)). destruct (Z.leb_spec (max_depth tp) (Z.of_nat (List.length (hash_prefix n)))); [lia|].
    unfold new_node, get_private_count. cbn [bind]. edestruct IH as (a & s' & ->); [intros; apply H; right; assumption|]. cbn [bind]. eauto.
  Qed.
  Lemma grow_total n k level s : (forall x, In x level -> List.length (hash_prefix x) = k) -> (Z.of_nat (k + n) <= max_depth tp)%Z ->
    exists rest s', grow n level s = Ok (rest, s').
  Proof.
    revert k level s. induction n as [|n IH]; intros k level s L B; cbn [ModelCluster.grow]; [eauto|].
    unfold ModelCluster.get_next_level.
    edestruct (all_children_total (filter_branching_nodes level) s) as (c & s' & E).
    { intros x Hx. apply filter_In in Hx. rewrite (L x) by tauto. lia. }
    rewrite E. cbn [bind]. destruct (all_children_shape _ _ _ _ E) as (_ & _ & _ & K & _).
    set (next := filter _ c). assert (LN : forall x, In x next -> List.length (hash_prefix x) = S k).
    { intros x Hx. apply filter_In in Hx. destruct (K x) as (p & Hp & (b & ->) & _); [tauto|]. apply filter_In in Hp. rewrite app_length, (L p) by tauto. cbn. lia. }
    destruct next as [|x r]; [eauto|]. edestruct (IH (S k) (x :: r) s' LN) as (rest & s2 & ->); [lia|]. cbn [bind]. eauto.
  Qed.
End Shape.
