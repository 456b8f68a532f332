(** Runs of the tree construction with other noise, and without one of the rows. *)
From Verif Require Import Base XReal Exn TypesCluster ModelCluster SpecCluster ProofTreeShape.

(** All the noisy values of a trace are those that [cnt] and [sm] give. *)
Definition agree (cnt : nat -> list point -> Z) (sm : nat -> list point -> vec) (s : trace) : Prop :=
  forall s1 r s2, s = s1 ++ r :: s2 ->
    match r with CountRelease p v => cnt (count_calls s1) p = v | SumRelease p v => sm (sum_calls s1) p = v end.
Lemma agree_nil cnt sm : agree cnt sm [].
Proof. intros s1 r s2 E. destruct s1; discriminate. Qed.
Lemma agree_prefix cnt sm s l : agree cnt sm (s ++ l) -> agree cnt sm s.
Proof. intros H s1 r s2 ->. apply (H s1 r (s2 ++ l)). rewrite <- app_assoc. reflexivity. Qed.
Lemma agree_last cnt sm s r : agree cnt sm (s ++ [r]) <->
  agree cnt sm s /\ match r with CountRelease p v => cnt (count_calls s) p = v | SumRelease p v => sm (sum_calls s) p = v end.
Proof.
  split.
  - intros H. split; [apply (agree_prefix _ _ _ _ H) | apply (H s r []), eq_refl].
  - intros [H Hr] s1 r' s2 E. destruct (exists_last (l := r' :: s2) ltac:(discriminate)) as (m & x & Em).
    rewrite Em, app_assoc in E. apply app_inj_tail in E. destruct E as [E <-].
    destruct m as [|y m].
    + cbn in Em. injection Em as -> ->. rewrite app_nil_r in E. subst s1. exact Hr.
    + cbn in Em. injection Em as -> ->. apply (H s1 y m E).
Qed.

Section Ext.
  Context (cnt : nat -> list point -> Z) (sm : nat -> list point -> vec) (projections : nat -> vec) (tp : tree_param).

  (** What a step does: it extends the trace with its own values, and does the same with any other
      source of the same values. *)
  Definition step {X} (F : (nat -> list point -> Z) -> (nat -> list point -> vec) -> trace -> res (X * trace)) : Prop :=
    forall s x s', F cnt sm s = Ok (x, s') ->
      (agree cnt sm s -> agree cnt sm s') /\ (exists r, s' = s ++ r) /\
      forall cnt' sm', agree cnt' sm' s' -> F cnt' sm' s = Ok (x, s').

  Lemma step_ret {X} (x : X) : step (fun _ _ s => Ok (x, s)).
  Proof. intros s y s' [= <- <-]. repeat split; auto. exists []. rewrite app_nil_r. reflexivity. Qed.
  Lemma step_err {X} e : step (X := X) (fun _ _ _ => Err e).
  Proof. intros s y s' [=]. Qed.
  Lemma step_bind {X Y} F (G : X -> _) : step F -> (forall x, step (X := Y) (G x)) ->
    step (fun c m s => let? (x, s) := F c m s in G x c m s).
  Proof.
    intros HF HG s y s' H. apply bind_Ok in H. destruct H as ((x & s1) & H1 & H2).
    destruct (HF _ _ _ H1) as (A1 & (r1 & E1) & B1). destruct (HG x _ _ _ H2) as (A2 & (r2 & E2) & B2).
    split; [auto|]. split; [exists (r1 ++ r2); subst; rewrite app_assoc; reflexivity|].
    intros c m Ag. rewrite (B1 c m) by (apply (agree_prefix _ _ _ r2); rewrite <- E2; exact Ag). cbn [bind]. apply B2, Ag.
  Qed.
  Lemma step_ext {X} (F G : _ -> _ -> trace -> res (X * trace)) : (forall c m s, F c m s = G c m s) -> step F -> step G.
  Proof. intros E H s x s' HG. rewrite <- E in HG. destruct (H _ _ _ HG) as (A & B & C). repeat split; auto. intros c m Ag. rewrite <- E. apply C, Ag. Qed.

  Lemma step_count pts : step (fun c _ s => Ok (get_private_count c pts s)).
  Proof.
    intros s x s' [= <- <-]. split; [intros A; apply agree_last; auto|]. split; [eauto|].
    intros c m Ag. apply agree_last in Ag. unfold get_private_count. destruct Ag as [_ ->]. reflexivity.
  Qed.
  Lemma step_node p pts : step (fun c _ s => Ok (new_node c p pts s)).
  Proof.
    eapply step_ext; [|apply (step_bind (fun c (m : nat -> list point -> vec) s => Ok (get_private_count c pts s)) (fun v _ _ s => Ok (mkNode p pts v, s))); [apply step_count | intros; apply step_ret]].
    reflexivity.
  Qed.
  Lemma step_average pts n : step (fun _ m s => get_private_average m pts n s).
  Proof.
    unfold get_private_average. destruct (n <? 1)%Z; [apply step_err|].
    intros s x s' [= <- <-]. split; [intros A; apply agree_last; auto|]. split; [eauto|].
    intros c m Ag. apply agree_last in Ag. destruct Ag as [_ ->]. reflexivity.
  Qed.
  Lemma step_children n : step (fun c _ s => children c projections tp n s).
  Proof.
    unfold children. destruct (group_by_next_hash projections tp (nonprivate_points n) (hash_prefix n)) as [[z o]|e]; [|apply step_err].
    eapply step_ext; [|apply (step_bind (fun c (m : nat -> list point -> vec) s => Ok (new_node c (hash_prefix n ++ [false]) z s))
      (fun a c m s => let? (b, s) := Ok (new_node c (hash_prefix n ++ [true]) o s) in Ok ([a; b], s))); [apply step_node|]].
    - intros. cbn [bind]. destruct (new_node _ _ z s). destruct (new_node _ _ o t). reflexivity.
    - intros a. apply step_bind; [apply step_node | intros; apply step_ret].
  Qed.
  Lemma step_all_children l : step (fun c _ s => all_children c projections tp l s).
  Proof.
    induction l as [|n l IH]; [apply step_ret|]. cbn [all_children].
    apply (step_bind (fun c _ s => children c projections tp n s) (fun ch c m s => let? (r, s) := all_children c projections tp l s in Ok (ch ++ r, s)) (step_children n)).
    intros ch. apply (step_bind (fun c _ s => all_children c projections tp l s) (fun r _ _ s => Ok (ch ++ r, s)) IH). intros; apply step_ret.
  Qed.
  Lemma step_grow n level : step (fun c _ s => grow c projections tp n level s).
  Proof.
    revert level. induction n as [|n IH]; intros level; [apply step_ret|]. cbn [grow].
    apply (step_bind (fun c _ s => get_next_level c projections tp (filter_branching_nodes tp level) s)
      (fun next c m s => match next with [] => Ok ([], s) | _ => let? (rest, s) := grow c projections tp n next s in Ok (next :: rest, s) end)).
    - unfold get_next_level.
      apply (step_bind (fun c _ s => all_children c projections tp (filter_branching_nodes tp level) s) (fun ch _ _ s => Ok (filter (fun n => (min_node tp <=? private_count n)%Z) ch, s)) (step_all_children _)).
      intros; apply step_ret.
    - intros [|x next]; [apply step_ret|].
      apply (step_bind (fun c _ s => grow c projections tp n (x :: next) s) (fun rest _ _ s => Ok ((x :: next) :: rest, s)) (IH _)). intros; apply step_ret.
  Qed.
  Lemma step_leaves root : step (fun c _ s => lsh_tree_leaves c projections tp root s).
  Proof.
    unfold lsh_tree_leaves. destruct (_ <? 1)%Z; [apply step_err|].
    apply (step_bind (fun c _ s => grow c projections tp (Z.to_nat (max_depth tp)) [root] s)
      (fun rest _ _ s => Ok (flat_map (filter (is_leaf ([root] :: rest))) ([root] :: rest), s)) (step_grow _ _)). intros; apply step_ret.
  Qed.
  Lemma step_averages l : step (fun _ m s => averages m l s).
  Proof.
    induction l as [|n l IH]; [apply step_ret|]. cbn [averages].
    apply (step_bind (fun _ m s => get_private_average m (nonprivate_points n) (private_count n) s) (fun v _ m s => let? (r, s) := averages m l s in Ok (v :: r, s)) (step_average _ _)).
    intros v. apply (step_bind (fun _ m s => averages m l s) (fun r _ _ s => Ok (v :: r, s)) IH). intros; apply step_ret.
  Qed.
  Lemma step_coreset radius pts count : step (fun c m s => get_private_coreset c m projections tp radius pts count s).
  Proof.
    unfold get_private_coreset. destruct (_ <? 0)%Z; [apply step_err|].
    eapply step_ext; [|apply (step_bind (fun c (m : nat -> list point -> vec) s => match count with Some v => Ok (mkNode [] pts v, s) | None => Ok (new_node c [] pts s) end)
      (fun root c m s => let? (leaves, s) := lsh_tree_leaves c projections tp (mkNode (hash_prefix root) (nonprivate_points root) (Z.max 1 (private_count root))) s in
         let? (avgs, s) := averages m leaves s in
         match clip_by_radius radius avgs with Ok core => Ok (core, map private_count leaves, s) | Err e => Err e end))].
    - intros c m s. destruct count as [v|]; cbn [bind]; [reflexivity|]. destruct (new_node c [] pts s). reflexivity.
    - destruct count; [apply step_ret | apply step_node].
    - intros root. apply (step_bind (fun c _ s => lsh_tree_leaves c projections tp _ s) (fun leaves _ m s => let? (avgs, s) := averages m leaves s in
         match clip_by_radius radius avgs with Ok core => Ok (core, map private_count leaves, s) | Err e => Err e end) (step_leaves _)).
      intros leaves. apply (step_bind (fun _ m s => averages m leaves s) (fun avgs _ _ s => match clip_by_radius radius avgs with Ok core => Ok (core, map private_count leaves, s) | Err e => Err e end) (step_averages _)).
      intros avgs. destruct (clip_by_radius radius avgs); [apply step_ret | apply step_err].
  Qed.
End Ext.

Section ExtTop.
  Context (cnt : nat -> list point -> Z) (sm : nat -> list point -> vec) (projections : nat -> vec).
  Context (kmeans : Z -> list vec -> list Z -> res (list vec)) (pc : calculator) (k : Z) (dim : nat) (radius : R).
  Context (pts : list point) (tree : option tree_param) (depth : Z).
  Lemma step_choose : step cnt sm (fun c _ s => choose_tree c pc k dim pts tree depth s).
  Proof.
    unfold choose_tree. destruct tree as [tp|]; [apply step_ret|]. unfold default_tree_param.
    eapply step_ext; [|apply (step_bind cnt sm (fun c (m : nat -> list point -> vec) s => Ok (get_private_count c pts s))
      (fun count _ _ s => match
         (if Reqb (sensitivity pc) 0 then Err ZeroDivisionError else
          if (2 * k =? 0)%Z then Err ZeroDivisionError else
          let inner := Z.max 1 (Z.min (Rtrunc (10 * sqrt (INR dim) * gaussian_std_dev pc / sensitivity pc)) (count / (2 * k))) in
          let? tp := new_tree_param (3 * inner) inner depth in Ok (tp, Some count)) with Ok x => Ok (x, s) | Err e => Err e end) (step_count _ _ _))].
    - intros c m s. cbn [bind get_private_count]. destruct (Reqb (sensitivity pc) 0); [reflexivity|]. destruct (2 * k =? 0)%Z; [reflexivity|]. cbn zeta.
      destruct (new_tree_param _ _ _); reflexivity.
    - intros count. destruct (if Reqb (sensitivity pc) 0 then _ else _); [apply step_ret | apply step_err].
  Qed.
  Lemma step_cluster : step cnt sm (fun c m s => cluster_from c m projections kmeans pc k dim radius pts tree depth s).
  Proof.
    unfold cluster_from.
    eapply step_ext; [|apply (step_bind cnt sm (fun c _ s => choose_tree c pc k dim pts tree depth s)
      (fun tc c m s => match clip_points radius pts with
        | Err e => Err e
        | Ok clipped => let? (cw, s) := get_private_coreset c m projections (fst tc) radius clipped (snd tc) s in
            match kmeans (Z.min k (Z.of_nat (List.length (fst cw)))) (fst cw) (snd cw) with Ok centers => Ok (centers, s) | Err e => Err e end end) step_choose)].
    - intros c m s. cbn beta. destruct (choose_tree c pc k dim pts tree depth s) as [[[tp count] s1]|e]; [|reflexivity]. cbn [bind fst snd].
      destruct (clip_points radius pts); [|reflexivity]. cbn [bind]. destruct (get_private_coreset _ _ _ _ _ _ _ _) as [[[core ws] s2]|e]; [|reflexivity].
      cbn [bind fst snd]. destruct (kmeans _ _ _); reflexivity.
    - intros [tp count]. cbn [fst snd]. destruct (clip_points radius pts) as [clipped|]; [|apply step_err].
      apply (step_bind cnt sm (fun c m s => get_private_coreset c m projections tp radius clipped count s)
        (fun cw _ _ s => match kmeans (Z.min k (Z.of_nat (List.length (fst cw)))) (fst cw) (snd cw) with Ok centers => Ok (centers, s) | Err e => Err e end) (step_coreset _ _ _ _ _ _ _)).
      intros cw. destruct (kmeans _ _ _); [apply step_ret | apply step_err].
  Qed.
End ExtTop.

(** Given the noisy values, nothing else depends on the row [i]. *)
Section Drop.
  Context (i : nat) (v : nat -> Z) (w : nat -> vec) (projections : nat -> vec) (tp : tree_param).
  Definition drop_node (n : node) : node := mkNode (hash_prefix n) (without i (nonprivate_points n)) (private_count n).
  Definition drop_release (r : release) : release :=
    match r with CountRelease p c => CountRelease (without i p) c | SumRelease p c => SumRelease (without i p) c end.
  Definition drop_trace (s : trace) : trace := map drop_release s.
  Definition dropped {X Y} (f : X -> Y) (r : res (X * trace)) : res (Y * trace) := let? (x, s) := r in Ok (f x, drop_trace s).
  Notation cnt := (fun j (_ : list point) => v j).
  Notation sm := (fun j (_ : list point) => w j).

  Lemma drop_counts s : count_calls (drop_trace s) = count_calls s.
  Proof. unfold count_calls, drop_trace. induction s as [|[p c|p c] s IH]; cbn; auto. Qed.
  Lemma drop_sums s : sum_calls (drop_trace s) = sum_calls s.
  Proof. unfold sum_calls, drop_trace. induction s as [|[p c|p c] s IH]; cbn; auto. Qed.
  Lemma drop_app s l : drop_trace (s ++ l) = drop_trace s ++ drop_trace l.
  Proof. apply map_app. Qed.

  Lemma drop_new p pts s : new_node cnt p (without i pts) (drop_trace s) = let (n, s) := new_node cnt p pts s in (drop_node n, drop_trace s).
  Proof. unfold new_node, get_private_count. rewrite drop_counts, drop_app. reflexivity. Qed.
  Lemma filter_without (f : point -> bool) l : filter f (without i l) = without i (filter f l).
  Proof. apply filter_swap. Qed.
  Lemma drop_children n s : children cnt projections tp (drop_node n) (drop_trace s) = dropped (map drop_node) (children cnt projections tp n s).
  Proof.
    unfold children, group_by_next_hash. cbn [drop_node nonprivate_points hash_prefix]. destruct (_ <=? _)%Z; [reflexivity|]. cbn [bind].
    rewrite !filter_without.
    rewrite drop_new. unfold new_node at 1 3. unfold get_private_count. cbn [fst snd]. rewrite drop_new.
    unfold new_node, get_private_count. reflexivity.
  Qed.
  Lemma drop_all_children l s : all_children cnt projections tp (map drop_node l) (drop_trace s) = dropped (map drop_node) (all_children cnt projections tp l s).
  Proof.
    revert s. induction l as [|n l IH]; intros s; [reflexivity|]. cbn [map all_children]. rewrite drop_children.
    destruct (children cnt projections tp n s) as [[c s1]|e]; [|reflexivity]. cbn [dropped bind]. rewrite IH.
    destruct (all_children cnt projections tp l s1) as [[r s2]|e]; [|reflexivity]. cbn [dropped bind]. rewrite map_app. reflexivity.
  Qed.
  Lemma drop_filter (f : Z -> bool) l : filter (fun n => f (private_count n)) (map drop_node l) = map drop_node (filter (fun n => f (private_count n)) l).
  Proof. induction l as [|n l IH]; [reflexivity|]. cbn. destruct (f (private_count n)); cbn; rewrite IH; reflexivity. Qed.
  Lemma drop_grow n level s : grow cnt projections tp n (map drop_node level) (drop_trace s) = dropped (map (map drop_node)) (grow cnt projections tp n level s).
  Proof.
    revert level s. induction n as [|n IH]; intros level s; [reflexivity|]. cbn [grow]. unfold get_next_level, filter_branching_nodes.
    rewrite (drop_filter (fun c => (min_branching tp <=? c)%Z)), drop_all_children.
    destruct (all_children cnt projections tp _ s) as [[c s1]|e]; [|reflexivity]. cbn [dropped bind]. rewrite (drop_filter (fun c => (min_node tp <=? c)%Z)).
    set (next := filter (fun n => (min_node tp <=? private_count n)%Z) c). destruct next as [|x r]; [reflexivity|].
    cbn [map]. change (drop_node x :: map drop_node r) with (map drop_node (x :: r)). rewrite IH.
    destruct (grow cnt projections tp n (x :: r) s1) as [[rest s2]|e]; reflexivity.
  Qed.
  Lemma drop_is_leaf tree n : is_leaf (map (map drop_node) tree) (drop_node n) = is_leaf tree n.
  Proof.
    unfold is_leaf. cbn [drop_node hash_prefix]. rewrite map_length. destruct (_ <? _)%nat; [reflexivity|]. f_equal.
    change (nth (S (List.length (hash_prefix n))) (map (map drop_node) tree) []) with (nth (S (List.length (hash_prefix n))) (map (map drop_node) tree) (map drop_node [])).
    rewrite map_nth. induction (nth _ tree []) as [|c l IH]; [reflexivity|]. cbn [map existsb drop_node hash_prefix]. rewrite IH. reflexivity.
  Qed.
  Lemma drop_leaves full l : flat_map (filter (is_leaf (map (map drop_node) full))) (map (map drop_node) l) = map drop_node (flat_map (filter (is_leaf full)) l).
  Proof.
    induction l as [|x l IH]; [reflexivity|]. cbn [map flat_map]. rewrite map_app, IH. f_equal.
    induction x as [|n x IHx]; [reflexivity|]. cbn [map filter]. rewrite drop_is_leaf. destruct (is_leaf full n); cbn [map]; rewrite IHx; reflexivity.
  Qed.
  Lemma drop_averages l s : averages sm (map drop_node l) (drop_trace s) = dropped (fun a => a) (averages sm l s).
  Proof.
    revert s. induction l as [|n l IH]; intros s; [reflexivity|]. cbn [map averages]. unfold get_private_average. cbn [drop_node private_count nonprivate_points].
    destruct (_ <? 1)%Z; [reflexivity|]. cbn [bind]. rewrite drop_sums.
    change (drop_trace s ++ [SumRelease (without i (nonprivate_points n)) (w (sum_calls s))]) with (drop_trace s ++ drop_trace [SumRelease (nonprivate_points n) (w (sum_calls s))]).
    rewrite <- drop_app, IH. destruct (averages sm l _) as [[r s2]|e]; reflexivity.
  Qed.
  Lemma drop_coreset radius pts count s :
    get_private_coreset cnt sm projections tp radius (without i pts) count (drop_trace s) =
    dropped (fun x => x) (get_private_coreset cnt sm projections tp radius pts count s).
  Proof.
    unfold get_private_coreset. destruct (_ <? 0)%Z; [reflexivity|].
    assert (H : forall (n : node) s,
      (let root := mkNode (hash_prefix (drop_node n)) (nonprivate_points (drop_node n)) (Z.max 1 (private_count (drop_node n))) in
       let? (leaves, s) := lsh_tree_leaves cnt projections tp root (drop_trace s) in
       let? (avgs, s) := averages sm leaves s in
       let? core := clip_by_radius radius avgs in Ok (core, map private_count leaves, s)) =
      dropped (fun x => x) (let root := mkNode (hash_prefix n) (nonprivate_points n) (Z.max 1 (private_count n)) in
       let? (leaves, s) := lsh_tree_leaves cnt projections tp root s in
       let? (avgs, s) := averages sm leaves s in
       let? core := clip_by_radius radius avgs in Ok (core, map private_count leaves, s))).
    { intros n t. cbn zeta. unfold lsh_tree_leaves. cbn [drop_node hash_prefix nonprivate_points private_count]. destruct (_ <? 1)%Z; [reflexivity|].
      set (root := mkNode (hash_prefix n) (nonprivate_points n) (Z.max 1 (private_count n))).
      change (mkNode (hash_prefix n) (without i (nonprivate_points n)) (Z.max 1 (private_count n))) with (drop_node root).
      change [drop_node root] with (map drop_node [root]). rewrite drop_grow. destruct (grow cnt projections tp _ [root] t) as [[rest s1]|e]; [|reflexivity].
      cbn [dropped bind]. change (map drop_node [root] :: map (map drop_node) rest) with (map (map drop_node) ([root] :: rest)). rewrite drop_leaves, drop_averages.
      destruct (averages sm _ s1) as [[a s2]|e]; [|reflexivity]. cbn [dropped bind]. destruct (clip_by_radius radius a); [|reflexivity]. cbn [bind dropped].
      rewrite map_map. reflexivity. }
    destruct count as [c|]; [exact (H (mkNode [] pts c) s)|]. rewrite drop_new. unfold new_node, get_private_count. apply (H (mkNode [] pts (v (count_calls s)))).
  Qed.

  Context (kmeans : Z -> list vec -> list Z -> res (list vec)) (pc : calculator) (k : Z) (dim : nat) (radius : R).
  Lemma drop_clip pts : without i pts <> [] -> clip_points radius (without i pts) = let? c := clip_points radius pts in Ok (without i c).
  Proof.
    intros N. assert (E : forall l : list point, map (fun p => (fst p, clip_row radius (snd p))) (without i l) = without i (map (fun p => (fst p, clip_row radius (snd p))) l)).
    { induction l as [|p l IH]; [reflexivity|]. unfold without in *. cbn [map filter fst]. destruct (negb _); cbn [map]; rewrite IH; reflexivity. }
    unfold clip_points. destruct pts as [|q pts]; [contradiction N; reflexivity|]. destruct (without i (q :: pts)) eqn:W; [congruence|]. rewrite <- W, E. reflexivity.
  Qed.
  Lemma drop_choose pts tree depth s : choose_tree cnt pc k dim (without i pts) tree depth (drop_trace s) = dropped (fun x => x) (choose_tree cnt pc k dim pts tree depth s).
  Proof.
    unfold choose_tree, default_tree_param, get_private_count. destruct tree; [reflexivity|]. rewrite drop_counts.
    destruct (Reqb _ _); [reflexivity|]. destruct (_ =? 0)%Z; [reflexivity|]. cbn zeta. destruct (new_tree_param _ _ _); [|reflexivity]. cbn [bind dropped]. rewrite drop_app. reflexivity.
  Qed.
End Drop.
Lemma drop_cluster i v w projections kmeans pc k dim radius pts tree depth : without i pts <> [] -> 
  cluster_from (fun j _ => v j) (fun j _ => w j) projections kmeans pc k dim radius (without i pts) tree depth [] =
  dropped i (fun x => x) (cluster_from (fun j _ => v j) (fun j _ => w j) projections kmeans pc k dim radius pts tree depth []).
Proof.
  intros N. unfold cluster_from. change (@nil release) with (drop_trace i []) at 1. rewrite drop_choose, drop_clip by exact N.
  destruct (choose_tree _ pc k dim pts tree depth []) as [[[tp count] s]|e]; [|reflexivity]. cbn [dropped bind].
  destruct (clip_points radius pts) as [c|e]; [|reflexivity]. cbn [bind]. rewrite drop_coreset.
  destruct (get_private_coreset _ _ _ _ _ _ _ _) as [[[core ws] s2]|e]; [|reflexivity]. cbn [dropped bind]. destruct (kmeans _ _ _); reflexivity.
Qed.
