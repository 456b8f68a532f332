(** The influence of one row on the clustering. *)
From Verif Require Import Base XReal Exn TypesCluster ModelCluster SpecCluster ProofTreeShape ProofLockstep.

(** ** How many noisy values use a row *)
Lemma sum_rows i r leaves : forallb (fun x => negb (is_count x)) r = true -> map rows_of r = map nonprivate_points leaves ->
  sums_with i r = occ i leaves /\ counts_with i r = 0%nat.
Proof.
  revert leaves. induction r as [|x r IH]; intros [|n l]; try discriminate; [auto|]. cbn [forallb map]. intros H [= E E']. apply andb_true_iff in H. destruct H as [H1 H2].
  destruct (IH l H2 E') as [A B]. unfold sums_with, counts_with, occ in *. cbn [filter]. rewrite H1. apply negb_true_iff in H1. rewrite H1. cbn [andb].
  unfold uses at 1. rewrite E. fold (has i (nonprivate_points n)). destruct (has i (nonprivate_points n)); cbn [List.length]; rewrite A; auto.
Qed.
Lemma count_rows i r : forallb is_count r = true -> sums_with i r = 0%nat.
Proof. induction r as [|x r IH]; [reflexivity|]. cbn [forallb]. intros H. apply andb_true_iff in H. destruct H as [H1 H2]. unfold sums_with in *. cbn [filter]. rewrite H1. apply IH, H2. Qed.

Lemma chain_rows k tree : chain k tree -> forall l n, In l tree -> In n l -> forall q, In q (nonprivate_points n) ->
  exists m, In m (hd [] tree) /\ In q (nonprivate_points m).
Proof.
  intros C. induction C as [k l N L | k l l' r N L K O C IH]; intros x n Hx Hn q Hq; cbn [hd] in *.
  - destruct Hx as [<-|[]]. eauto.
  - destruct Hx as [<-|Hx]; [eauto|]. destruct (IH x n Hx Hn q Hq) as (m & Hm & Q). destruct (K m Hm) as (p & Hp & _ & Inc & _). eauto.
Qed.

Section Shape.
  Context (count_of : nat -> list point -> Z) (sum_of : nat -> list point -> vec) (projections : nat -> vec).
  Lemma leaves_shape tp root s leaves s' : hash_prefix root = [] -> distinct root ->
    lsh_tree_leaves count_of projections tp root s = Ok (leaves, s') ->
    exists r, s' = s ++ r /\ forallb is_count r = true /\ (forall i, counts_with i r <= Z.to_nat (max_depth tp))%nat /\
      (forall i, occ i leaves <= 1)%nat /\ leaves <> [] /\
      (forall n, In n leaves -> n = root \/ (min_node tp <= private_count n)%Z) /\
      forall n q, In n leaves -> In q (nonprivate_points n) -> In q (nonprivate_points root).
  Proof.
    intros P D. unfold lsh_tree_leaves. destruct (_ <? 1)%Z; [discriminate|]. intros H. apply bind_Ok in H. destruct H as ((rest & s1) & H1 & H). injection H as <- <-.
    destruct (grow_shape count_of projections tp _ 0 _ _ _ _ H1) as (r & -> & C & Ch & B & M).
    - discriminate.
    - intros x [<-|[]]. rewrite P. reflexivity.
    - intros x [<-|[]]. exact D.
    - assert (One : forall i, (occ i [root] <= 1)%nat) by (intros i; unfold occ; cbn; destruct (has _ _); cbn; lia).
      exists r. split; [reflexivity|]. split; [exact C|]. split; [intros i; specialize (B i); specialize (One i); nia|]. split; [|split; [|split]].
      + intros i. pose proof (leaves_occ ([root] :: rest) i 0 _ Ch) as Q. cbn [hd] in Q. specialize (One i).
        eapply Nat.le_trans; [apply Q|]; [exists []; auto | exact One | exact One].
      + apply (leaves_nonempty count_of projections ([root] :: rest) 0 ([root] :: rest)); [exact Ch | exists []; auto].
      + intros n Hn. change (In n (flat_map (filter (is_leaf ([root] :: rest))) ([root] :: rest))) in Hn. apply in_flat_map in Hn. destruct Hn as (l & [<-|Hl] & Hn); apply filter_In in Hn; destruct Hn as [Hn _].
        * destruct Hn as [<-|[]]. left. reflexivity.
        * right. apply (M l n Hl Hn).
      + intros n q Hn Hq. change (In n (flat_map (filter (is_leaf ([root] :: rest))) ([root] :: rest))) in Hn. apply in_flat_map in Hn. destruct Hn as (l & Hl & Hn). apply filter_In in Hn.
        destruct (chain_rows 0 _ Ch l n Hl (proj1 Hn) q Hq) as (m & [<-|[]] & Q). exact Q.
  Qed.

  Lemma coreset_shape tp radius pts count s core w s' : NoDup (names pts) ->
    get_private_coreset count_of sum_of projections tp radius pts count s = Ok (core, w, s') ->
    exists r, s' = s ++ r /\ (forall i, counts_with i r <= (match count with None => 1 | Some _ => 0 end) + Z.to_nat (max_depth tp))%nat /\
      (0 <= max_depth tp)%Z /\
      (forall i, sums_with i r <= 1)%nat /\
      (forall x q, In x r -> is_count x = false -> In q (rows_of x) -> In q pts).
  Proof.
    intros D. unfold get_private_coreset. destruct (Z.ltb_spec (max_depth tp) 0) as [|MD]; [discriminate|].
    set (s0 := snd (match count with Some c => (mkNode [] pts c, s) | None => new_node count_of [] pts s end)).
    set (root := mkNode [] pts (Z.max 1 (private_count (fst (match count with Some c => (mkNode [] pts c, s) | None => new_node count_of [] pts s end))))).
    assert (E0 : exists r0, s0 = s ++ r0 /\ forallb is_count r0 = true /\ forall i, (counts_with i r0 <= match count with None => 1 | Some _ => 0 end)%nat).
    { unfold s0. destruct count; cbn; [exists []; rewrite app_nil_r; auto|]. eexists. split; [reflexivity|]. split; [reflexivity|].
      intros i. unfold counts_with. cbn [filter is_count andb]. destruct (uses _ _); cbn; lia. }
    intros H. assert (H' : (let? (leaves, s) := lsh_tree_leaves count_of projections tp root s0 in
        let? (avgs, s) := averages sum_of leaves s in let? core := clip_by_radius radius avgs in Ok (core, map private_count leaves, s)) = Ok (core, w, s')).
    { rewrite <- H. unfold root, s0. destruct count; reflexivity. }
    clear H. apply bind_Ok in H'. destruct H' as ((leaves & s1) & H1 & H). apply bind_Ok in H. destruct H as ((a & s2) & H2 & H). apply bind_Ok in H. destruct H as (cl & H3 & H). injection H as <- <- <-.
    destruct E0 as (r0 & E0 & C0 & B0). destruct (leaves_shape tp root s0 leaves s1 eq_refl D H1) as (r1 & -> & C1 & B1 & O & _ & _ & Rows).
    destruct (averages_shape sum_of _ _ _ _ H2) as (r2 & -> & C2 & M2 & _). exists (r0 ++ r1 ++ r2). rewrite E0, <- !app_assoc. split; [reflexivity|]. split; [|split; [exact MD|split]].
    - intros i. rewrite !counts_app. destruct (sum_rows i r2 leaves C2 M2) as [_ ->]. specialize (B0 i). specialize (B1 i). lia.
    - intros i. rewrite !sums_app, (count_rows i r0 C0), (count_rows i r1 C1). destruct (sum_rows i r2 leaves C2 M2) as [-> _]. specialize (O i). lia.
    - intros x q Hx Cx Hq. apply in_app_or in Hx. destruct Hx as [Hx|Hx]; [rewrite forallb_forall in C0; rewrite (C0 x Hx) in Cx; discriminate|].
      apply in_app_or in Hx. destruct Hx as [Hx|Hx]; [rewrite forallb_forall in C1; rewrite (C1 x Hx) in Cx; discriminate|].
      assert (I : In (rows_of x) (map nonprivate_points leaves)) by (rewrite <- M2; apply in_map, Hx).
      apply in_map_iff in I. destruct I as (n & En & Hn). apply (Rows n q Hn). rewrite En. exact Hq.
  Qed.
End Shape.

Lemma clip_names radius pts c : clip_points radius pts = Ok c -> names c = names pts /\ c = map (fun p => (fst p, clip_row radius (snd p))) pts.
Proof. unfold clip_points. destruct pts as [|p l]; [discriminate|]. intros [= <-]. split; [|reflexivity]. unfold names. cbn [map fst]. rewrite map_map. reflexivity. Qed.

Lemma new_tree_ok b m d tp : new_tree_param b m d = Ok tp -> tp = mkTree b m d /\ (1 <= m <= b)%Z.
Proof. unfold new_tree_param. destruct (Z.ltb_spec m 1); [discriminate|]. destruct (Z.ltb_spec b m); [discriminate|]. intros [= <-]. split; [reflexivity | lia]. Qed.

Section Top.
  Context (count_of : nat -> list point -> Z) (sum_of : nat -> list point -> vec) (projections : nat -> vec).
  Context (kmeans : Z -> list vec -> list Z -> res (list vec)) (pc : calculator) (k : Z) (dim : nat) (radius : R).
  Lemma choose_shape pts tree depth tp c s : choose_tree count_of pc k dim pts tree depth [] = Ok (tp, c, s) -> (forall t, tree = Some t -> max_depth t = depth) ->
    max_depth tp = depth /\ forallb is_count s = true /\
    (forall i, counts_with i s + match c with None => 1 | Some _ => 0 end <= 1)%nat.
  Proof.
    unfold choose_tree, default_tree_param, get_private_count. destruct tree as [t|]; intros H T.
    - injection H as <- <- <-. repeat split; auto.
    - destruct (Reqb _ _); [discriminate|]. destruct (_ =? 0)%Z; [discriminate|]. cbn zeta in H. apply bind_Ok in H. destruct H as (((t & v) & s') & H1 & [= <- <- <-]).
      apply bind_Ok in H1. destruct H1 as (t' & H1 & [= <- <- <-]). apply new_tree_ok in H1. destruct H1 as [-> _]. split; [reflexivity|]. split; [reflexivity|].
      intros i. unfold counts_with. cbn [app filter is_count andb]. destruct (uses _ _); cbn; lia.
  Qed.

  Lemma cluster_shape pts tree depth centers s : NoDup (names pts) -> (forall t, tree = Some t -> max_depth t = depth) ->
    cluster_from count_of sum_of projections kmeans pc k dim radius pts tree depth [] = Ok (centers, s) ->
    (forall i, counts_with i s <= Z.to_nat (depth + 1))%nat /\ (forall i, sums_with i s <= 1)%nat /\
    forall x q, In x s -> is_count x = false -> In q (rows_of x) -> exists p, In p pts /\ q = (fst p, clip_row radius (snd p)).
  Proof.
    intros D T. unfold cluster_from. intros H. apply bind_Ok in H. destruct H as (((tp & c) & s0) & H0 & H). apply bind_Ok in H. destruct H as (cl & H1 & H).
    apply bind_Ok in H. destruct H as (((core & w) & s1) & H2 & H). apply bind_Ok in H. destruct H as (ce & _ & [= <- <-]).
    destruct (choose_shape _ _ _ _ _ _ H0 T) as (MD & C0 & B0). destruct (clip_names _ _ _ H1) as [N Ecl]. assert (D' : NoDup (names cl)) by (rewrite N; exact D).
    destruct (coreset_shape count_of sum_of projections _ _ _ _ _ _ _ _ D' H2) as (r & -> & B & MD' & Sm & Rows). split; [|split].
    - intros i. rewrite counts_app. specialize (B0 i). specialize (B i). rewrite MD in B, MD'. replace (Z.to_nat (depth + 1)) with (S (Z.to_nat depth)) by lia. lia.
    - intros i. rewrite sums_app, (count_rows i s0 C0). apply Sm.
    - intros x q Hx Cx Hq. apply in_app_or in Hx. destruct Hx as [Hx|Hx]; [rewrite forallb_forall in C0; rewrite (C0 x Hx) in Cx; discriminate|].
      specialize (Rows x q Hx Cx Hq). rewrite Ecl in Rows. apply in_map_iff in Rows. destruct Rows as (p & <- & Hp). exists p. auto.
  Qed.
End Top.

(** ** Totality *)
Lemma coreset_total count_of sum_of projections tp radius pts count s : (0 <= max_depth tp)%Z -> (1 <= min_node tp)%Z -> NoDup (names pts) ->
  exists core w s', get_private_coreset count_of sum_of projections tp radius pts count s = Ok (core, w, s') /\ List.length core = List.length w /\ w <> [] /\
    forall c, In c w -> (1 <= c)%Z.
Proof.
  intros MD MN D. unfold get_private_coreset. destruct (Z.ltb_spec (max_depth tp) 0); [lia|].
  assert (E : forall n s, nonprivate_points n = pts -> hash_prefix n = [] -> exists core w s',
    (let root := mkNode (hash_prefix n) (nonprivate_points n) (Z.max 1 (private_count n)) in
      let? (leaves, s) := lsh_tree_leaves count_of projections tp root s in
      let? (avgs, s) := averages sum_of leaves s in let? core := clip_by_radius radius avgs in Ok (core, map private_count leaves, s)) = Ok (core, w, s')
    /\ List.length core = List.length w /\ w <> [] /\ forall c, In c w -> (1 <= c)%Z).
  { intros n t Pn Hn. cbn zeta. set (root := mkNode _ _ _).
    assert (L : exists leaves s', lsh_tree_leaves count_of projections tp root t = Ok (leaves, s')).
    { unfold lsh_tree_leaves. cbn [root private_count]. destruct (Z.ltb_spec (Z.max 1 (private_count n)) 1); [lia|].
      destruct (grow_total count_of projections tp (Z.to_nat (max_depth tp)) 0 [root] t) as (rest & s' & ->).
      - intros x [<-|[]]. cbn. rewrite Hn. reflexivity.
      - lia.
      - cbn [bind]. eauto. }
    destruct L as (leaves & t1 & L). rewrite L. cbn [bind].
    destruct (leaves_shape count_of projections tp root t leaves t1) as (_ & _ & _ & _ & _ & Ne & Co & _); [exact Hn | unfold distinct; cbn; rewrite Pn; exact D | exact L|].
    assert (Co' : forall m, In m leaves -> (1 <= private_count m)%Z) by (intros m Hm; destruct (Co m Hm) as [->|C]; [cbn; lia | lia]).
    destruct (averages_total sum_of leaves t1 Co') as (a & t2 & A). rewrite A. cbn [bind]. destruct (averages_shape sum_of _ _ _ _ A) as (_ & _ & _ & _ & Le).
    unfold clip_by_radius. destruct a as [|v a]; [destruct leaves; [congruence | discriminate]|]. cbn [bind]. do 3 eexists. split; [reflexivity|]. rewrite map_length in *. rewrite map_length. split; [exact Le|].
    split; [destruct leaves; [congruence | discriminate]|]. intros c Hc. apply in_map_iff in Hc. destruct Hc as (m & <- & Hm). apply Co', Hm. }
  destruct count as [c|]; [apply (E (mkNode [] pts c) s); reflexivity|]. unfold new_node, get_private_count. apply E; reflexivity.
Qed.
Lemma choose_total count_of pc k dim pts tree depth s : (1 <= k)%Z -> sensitivity pc <> 0 -> tree_ok tree depth ->
  exists tp c s', choose_tree count_of pc k dim pts tree depth s = Ok (tp, c, s') /\ (1 <= min_node tp <= min_branching tp)%Z /\ max_depth tp = depth.
Proof.
  intros K S (Dp & T). unfold choose_tree. destruct tree as [tp|]; [do 3 eexists; split; [reflexivity|]; exact T|].
  unfold default_tree_param, get_private_count. rewrite Reqb_false by exact S. destruct (Z.eqb_spec (2 * k) 0); [lia|]. cbn zeta.
  set (m := Z.max 1 _). assert (1 <= m)%Z by (unfold m; lia). clearbody m. unfold new_tree_param. destruct (Z.ltb_spec m 1); [lia|]. destruct (Z.ltb_spec (3 * m) m); [lia|]. cbn [bind].
  do 3 eexists. split; [reflexivity|]. cbn [min_node min_branching max_depth]. split; [lia | reflexivity].
Qed.
Lemma cluster_total count_of sum_of projections kmeans pc k dim radius pts tree depth : (1 <= k)%Z -> sensitivity pc <> 0 -> tree_ok tree depth ->
  NoDup (names pts) -> pts <> [] -> (forall k' l w, List.length l = List.length w -> (1 <= k' <= Z.of_nat (List.length l))%Z -> (forall c, In c w -> (1 <= c)%Z) -> exists c, kmeans k' l w = Ok c) ->
  exists centers s, cluster_from count_of sum_of projections kmeans pc k dim radius pts tree depth [] = Ok (centers, s).
Proof.
  intros K S T D N KM. unfold cluster_from. destruct (choose_total count_of pc k dim pts tree depth [] K S T) as (tp & c & s & -> & B & MD). cbn [bind].
  assert (Cl : exists cl, clip_points radius pts = Ok cl) by (destruct pts; [congruence | eexists; reflexivity]). destruct Cl as (cl & Cl). destruct (clip_names _ _ _ Cl) as [Nm _]. rewrite Cl. cbn [bind].
  destruct (coreset_total count_of sum_of projections tp radius cl c s) as (core & w & s' & -> & Le & Ne & Po).
  - destruct T. lia.
  - lia.
  - rewrite Nm. exact D.
  - cbn [bind]. destruct (KM (Z.min k (Z.of_nat (List.length core))) core w Le) as (ce & ->); [| exact Po | cbn [bind]; eauto].
    destruct core; [destruct w; [congruence | discriminate]|]. cbn [List.length]. lia.
Qed.

(** ** Calls and noise *)
Lemma call_at (f : release -> bool) s1 r s2 : f r = true -> nth_error (filter f (s1 ++ r :: s2)) (List.length (filter f s1)) = Some r.
Proof. intros F. rewrite filter_app. cbn [filter]. rewrite F, nth_error_app2 by lia. rewrite Nat.sub_diag. reflexivity. Qed.
Lemma call_inv (f : release -> bool) L j r : nth_error (filter f L) j = Some r -> exists s1 s2, L = s1 ++ r :: s2 /\ List.length (filter f s1) = j /\ f r = true.
Proof.
  revert j. induction L as [|x L IH]; intros j H; [destruct j; discriminate|]. cbn [filter] in H. destruct (f x) eqn:F.
  - destruct j as [|j]; cbn in H.
    + injection H as ->. exists [], L. auto.
    + destruct (IH j H) as (s1 & s2 & -> & E & Fr). exists (x :: s1), s2. cbn [filter]. rewrite F. cbn. auto.
  - destruct (IH j H) as (s1 & s2 & -> & E & Fr). exists (x :: s1), s2. cbn [filter]. rewrite F. auto.
Qed.
Lemma places_length {A} (f : A -> bool) l :
  List.length (filter (fun j => match nth_error l j with Some r => f r | None => false end) (seq 0 (List.length l))) = List.length (filter f l).
Proof.
  induction l as [|a l IH]; [reflexivity|]. cbn [List.length seq filter nth_error]. rewrite <- seq_shift.
  assert (E : forall m, filter (fun j => match nth_error (a :: l) j with Some r => f r | None => false end) (map S m) = map S (filter (fun j => match nth_error l j with Some r => f r | None => false end) m)).
  { induction m as [|x m IHm]; [reflexivity|]. cbn [map filter nth_error]. destruct (match nth_error l x with Some r => f r | None => false end); cbn [map]; rewrite <- IHm; reflexivity. }
  rewrite E. destruct (f a); cbn [List.length]; rewrite map_length, IH; reflexivity.
Qed.
Lemma filter_filter {A} (f g : A -> bool) l : filter f (filter g l) = filter (fun x => g x && f x) l.
Proof. induction l as [|a l IH]; [reflexivity|]. cbn. destruct (g a); cbn; [destruct (f a); cbn|]; rewrite IH; reflexivity. Qed.

Lemma without_length i p : NoDup (names p) -> List.length p = (List.length (without i p) + if has i p then 1 else 0)%nat.
Proof.
  induction p as [|q p IH]; [reflexivity|]. cbn [names map]. intros H. inversion H as [|? ? N D]; subst. specialize (IH D). unfold without, has in *. cbn [filter existsb List.length].
  destruct (Nat.eqb_spec (fst q) i) as [E|E]; cbn [negb orb].
  - assert (Z : existsb (fun p : point => Nat.eqb (fst p) i) p = false).
    { destruct (existsb _ p) eqn:X; [|reflexivity]. exfalso. apply N. rewrite E. apply (has_In i p), X. }
    rewrite Z in IH. lia.
  - cbn [List.length]. destruct (existsb _ p); lia.
Qed.

(** Vectors *)
Lemma vadd_comm u v : vadd u v = vadd v u.
Proof. revert v. induction u as [|a u IH]; intros [|b v]; try reflexivity. unfold vadd in *. cbn. rewrite IH, Rplus_comm. reflexivity. Qed.
Lemma vadd_assoc u v w : vadd (vadd u v) w = vadd u (vadd v w).
Proof. revert v w. induction u as [|a u IH]; intros [|b v] [|c w]; try reflexivity. unfold vadd in *. cbn. rewrite IH, Rplus_assoc. reflexivity. Qed.
Lemma vadd_length u v n : List.length u = n -> List.length v = n -> List.length (vadd u v) = n.
Proof. intros. unfold vadd. rewrite map_length, combine_length. lia. Qed.
Lemma vadd_zero u : vadd u (repeat 0 (List.length u)) = u.
Proof. induction u as [|a u IH]; [reflexivity|]. unfold vadd in *. cbn. rewrite IH, Rplus_0_r. reflexivity. Qed.
Lemma vadd_neg x : vadd x (vscale (-1) x) = repeat 0 (List.length x).
Proof. induction x as [|a x IH]; [reflexivity|]. unfold vadd, vscale in *. cbn. rewrite IH. f_equal. ring. Qed.
Lemma fold_vadd l a x : fold_left vadd l (vadd a x) = vadd (fold_left vadd l a) x.
Proof.
  revert a. induction l as [|b l IH]; intros a; [reflexivity|]. cbn [fold_left]. rewrite <- IH. f_equal. rewrite !vadd_assoc. f_equal. apply vadd_comm.
Qed.
Lemma vsum_cons dim u l : vsum dim (u :: l) = vadd (vsum dim l) u.
Proof. unfold vsum. cbn [fold_left]. apply fold_vadd. Qed.
Lemma vsum_length dim l : (forall u, In u l -> List.length u = dim) -> List.length (vsum dim l) = dim.
Proof.
  induction l as [|u l IH]; intros H; [apply repeat_length|]. rewrite vsum_cons. apply vadd_length; [apply IH; intros; apply H; right; assumption | apply H; left; reflexivity].
Qed.
Lemma without_absent i p : has i p = false -> without i p = p.
Proof.
  unfold without, has. induction p as [|q p IH]; [reflexivity|]. cbn [existsb filter]. intros H. apply orb_false_iff in H. destruct H as [-> H]. cbn [negb]. rewrite (IH H). reflexivity.
Qed.
Lemma vsum_without dim i x p : NoDup (names p) -> In (i, x) p -> vsum dim (map snd p) = vadd (vsum dim (map snd (without i p))) x.
Proof.
  induction p as [|q p IH]; [intros _ []|]. cbn [names map]. intros H Hi. inversion H as [|? ? N D]; subst. rewrite vsum_cons.
  destruct Hi as [->|Hi].
  - unfold without. cbn [filter fst snd]. rewrite Nat.eqb_refl. cbn [negb]. change (filter _ p) with (without i p). rewrite without_absent; [reflexivity|].
    destruct (has i p) eqn:X; [|reflexivity]. apply has_In in X. contradiction.
  - rewrite (IH D Hi). unfold without. cbn [filter]. destruct (Nat.eqb_spec (fst q) i) as [E|E].
    + exfalso. apply N. rewrite E. apply (in_map fst) in Hi. exact Hi.
    + cbn [negb map]. rewrite vsum_cons, !vadd_assoc. f_equal. apply vadd_comm.
Qed.
Lemma norm_neg x : norm (vscale (-1) x) = norm x.
Proof.
  unfold norm, dot. f_equal. unfold vscale. induction x as [|a x IH]; [reflexivity|]. cbn [map combine rsum fst snd]. rewrite IH. ring.
Qed.
Lemma norm_zero n : norm (repeat 0 n) = 0.
Proof.
  unfold norm, dot. assert (E : rsum (fun p : R * R => fst p * snd p) (combine (repeat 0 n) (repeat 0 n)) = 0).
  { induction n as [|n IH]; [reflexivity|]. cbn [repeat combine rsum fst snd]. rewrite IH. ring. }
  rewrite E. apply sqrt_0.
Qed.

(** ** The noise that gives the same values without (with) the row *)
Section Align.
  Context (i : nat) (x : vec) (dim : nat) (pc : calculator) (L : trace) (m : nat) (radius : R).
  Context (Fin' : laplace_param pc <> PInf) (Lx : List.length x = dim) (Nx : norm x <= radius) (R0 : 0 <= radius).
  (** The rows in the trace have distinct names and the right dimension; the row [i] of a sum is [x]. *)
  Context (OK : forall r, In r L -> NoDup (names (rows_of r))).
  Context (OKs : forall r, In r L -> is_count r = false -> (forall q, In q (rows_of r) -> List.length (snd q) = dim /\ (fst q = i -> snd q = x))).
  Context (Hc : (counts_with i L <= m)%nat) (Hs : (sums_with i L <= 1)%nat).

  Definition count_at (j : nat) : option release := nth_error (filter is_count L) j.
  Definition sum_at (j : nat) : option release := nth_error (filter (fun r => negb (is_count r)) L) j.
  Definition hit (o : option release) : bool := match o with Some r => uses i r | None => false end.

  Lemma noisy_fin n j p : noisy_count n pc j p = (Z.of_nat (List.length p) + n j)%Z.
  Proof. unfold noisy_count. destruct (laplace_param pc); try reflexivity. congruence. Qed.

  Definition move_count (d : Z) (n : nat -> Z) (j : nat) : Z := if hit (count_at j) then (n j + d)%Z else n j.
  Definition move_sum (y : vec) (g : nat -> vec) (j : nat) : vec := if hit (sum_at j) then vadd (g j) y else g j.

  Lemma count_split s1 r s2 : L = s1 ++ r :: s2 -> is_count r = true -> count_at (count_calls s1) = Some r.
  Proof. intros E H. unfold count_at. rewrite E. apply call_at, H. Qed.
  Lemma sum_split s1 r s2 : L = s1 ++ r :: s2 -> is_count r = false -> sum_at (sum_calls s1) = Some r.
  Proof. intros E H. unfold sum_at. rewrite E. apply (call_at (fun r => negb (is_count r))). rewrite H. reflexivity. Qed.

  Lemma move_shifted d n : (Z.abs d <= 1)%Z -> shifted m n (move_count d n).
  Proof.
    intros D. split.
    - intros j. unfold move_count. destruct (hit _); lia.
    - exists (filter (fun j => match nth_error (filter is_count L) j with Some r => uses i r | None => false end) (seq 0 (List.length (filter is_count L)))). split.
      + rewrite places_length, filter_filter. exact Hc.
      + intros j H. unfold move_count. destruct (hit (count_at j)) eqn:E; [|reflexivity]. exfalso. apply H. apply filter_In. unfold hit, count_at in E.
        destruct (nth_error (filter is_count L) j) as [r|] eqn:N; [|discriminate]. split; [|exact E]. apply in_seq. split; [lia|]. cbn. apply nth_error_Some. rewrite N. discriminate.
  Qed.
  Lemma move_moved y g : noise_ok dim g -> norm y <= radius -> List.length y = dim -> moved radius g (move_sum y g).
  Proof.
    intros G Ny Ly. set (P := filter (fun j => hit (sum_at j)) (seq 0 (List.length (filter (fun r => negb (is_count r)) L)))).
    assert (B : (List.length P <= 1)%nat) by (unfold P, hit, sum_at; rewrite places_length, filter_filter; exact Hs).
    assert (In' : forall j, hit (sum_at j) = true -> In j P).
    { intros j E. apply filter_In. split; [|exact E]. unfold hit, sum_at in E. destruct (nth_error _ j) as [r|] eqn:N; [|discriminate]. apply in_seq. split; [lia|]. cbn. apply nth_error_Some. rewrite N. discriminate. }
    destruct P as [|p P'] eqn:EP.
    - exists 0%nat, (repeat 0 dim). split; [rewrite norm_zero; exact R0|]. assert (No : forall j, move_sum y g j = g j).
      { intros j. unfold move_sum. destruct (hit (sum_at j)) eqn:E; [destruct (In' j E) | reflexivity]. }
      split; [|intros; apply No]. rewrite No. rewrite <- (G 0%nat). symmetry. apply vadd_zero.
    - exists p, y. split; [exact Ny|]. assert (Hp : hit (sum_at p) = true).
      { assert (I : In p P) by (rewrite EP; left; reflexivity). apply filter_In in I. apply I. }
      destruct P' as [|p' P'']; [|cbn in B; lia]. split; [unfold move_sum; rewrite Hp; reflexivity|].
      intros j Hj. unfold move_sum. destruct (hit (sum_at j)) eqn:E; [|reflexivity]. destruct (In' j E) as [<-|[]]. contradiction.
  Qed.

  Lemma sum_moved r : In r L -> is_count r = false -> uses i r = true ->
    vsum dim (map snd (rows_of r)) = vadd (vsum dim (map snd (without i (rows_of r)))) x /\ List.length (vsum dim (map snd (without i (rows_of r)))) = dim.
  Proof.
    intros Hr Cr U. unfold uses in U. apply existsb_exists in U. destruct U as (q & Hq & E). apply Nat.eqb_eq in E. destruct (OKs r Hr Cr q Hq) as [_ S]. split.
    - apply vsum_without; [apply OK, Hr|]. rewrite <- E, <- (S E). destruct q; exact Hq.
    - apply vsum_length. intros u Hu. apply in_map_iff in Hu. destruct Hu as (p & <- & Hp). apply filter_In in Hp. apply (OKs r Hr Cr p), Hp.
  Qed.
  Lemma drop_split L0 s1 r s2 : drop_trace i L0 = s1 ++ r :: s2 -> exists t1 r0 t2, L0 = t1 ++ r0 :: t2 /\ s1 = drop_trace i t1 /\ r = drop_release i r0.
  Proof.
    revert s1. induction L0 as [|a L0 IH]; intros s1; [destruct s1; discriminate|]. cbn [drop_trace map]. destruct s1 as [|b s1]; cbn [app]; intros E.
    - injection E as <- E. exists [], a, L0. auto.
    - injection E as <- E. destruct (IH s1 E) as (t1 & r0 & t2 & -> & -> & ->). exists (a :: t1), r0, t2. auto.
  Qed.

  (** Without the row. *)
  Lemma align_remove n g : noise_ok dim g -> agree (noisy_count n pc) (noisy_sum g dim) L ->
    agree (noisy_count (move_count 1 n) pc) (noisy_sum (move_sum x g) dim) (drop_trace i L).
  Proof.
    intros G A s1 r s2 E. destruct (drop_split L s1 r s2 E) as (t1 & r0 & t2 & EL & -> & ->). specialize (A t1 r0 t2 EL).
    assert (Hr : In r0 L) by (rewrite EL; apply in_or_app; right; left; reflexivity).
    destruct r0 as [p v|p v]; cbn [drop_release].
    - rewrite drop_counts, noisy_fin in *. unfold move_count. rewrite (count_split _ _ _ EL eq_refl). cbn [hit]. rewrite <- A. unfold uses. cbn [rows_of]. fold (has i p).
      pose proof (without_length i p (OK _ Hr)). destruct (has i p); lia.
    - rewrite drop_sums. unfold noisy_sum, move_sum in *. rewrite (sum_split _ _ _ EL eq_refl). cbn [hit].
      destruct (uses i (SumRelease p v)) eqn:U; rewrite <- A.
      + destruct (sum_moved _ Hr eq_refl U) as [S _]. cbn [rows_of] in S. rewrite S, !vadd_assoc. f_equal. apply vadd_comm.
      + rewrite without_absent; [reflexivity | exact U].
  Qed.
  (** With the row again. *)
  Lemma align_add n g : noise_ok dim g -> agree (noisy_count n pc) (noisy_sum g dim) (drop_trace i L) ->
    agree (noisy_count (move_count (-1) n) pc) (noisy_sum (move_sum (vscale (-1) x) g) dim) L.
  Proof.
    intros G A t1 r0 t2 EL. assert (E : drop_trace i L = drop_trace i t1 ++ drop_release i r0 :: drop_trace i t2) by (rewrite EL; unfold drop_trace; rewrite map_app; reflexivity).
    specialize (A _ _ _ E). assert (Hr : In r0 L) by (rewrite EL; apply in_or_app; right; left; reflexivity).
    destruct r0 as [p v|p v]; cbn [drop_release] in A.
    - rewrite drop_counts, noisy_fin in *. unfold move_count. rewrite (count_split _ _ _ EL eq_refl). cbn [hit]. rewrite <- A. unfold uses. cbn [rows_of]. fold (has i p).
      pose proof (without_length i p (OK _ Hr)). destruct (has i p); lia.
    - rewrite drop_sums in A. unfold noisy_sum, move_sum in *. rewrite (sum_split _ _ _ EL eq_refl). cbn [hit].
      destruct (uses i (SumRelease p v)) eqn:U; rewrite <- A.
      + destruct (sum_moved _ Hr eq_refl U) as [S S']. cbn [rows_of] in S, S'. rewrite S, vadd_assoc. f_equal.
        rewrite (vadd_comm (g _)), <- vadd_assoc, vadd_neg, vadd_comm, Lx, <- (G (sum_calls t1)). apply vadd_zero.
      + rewrite without_absent; [reflexivity | exact U].
  Qed.
End Align.
