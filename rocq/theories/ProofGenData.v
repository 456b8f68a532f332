(** The datasets of the generators. *)
From Coq Require Import String DecimalString Permutation.
From Verif Require Import Base Exn XReal TypesGen ModelGen SpecGen ProofGen ProofGenRun.

Lemma scalars_all xs : scalars (List.length xs) xs = xs.
Proof.
  unfold scalars. apply (nth_ext _ _ 0 0); [rewrite map_length, seq_length; reflexivity|]. intros i H. rewrite map_length, seq_length in H.
  rewrite (nth_indep _ 0 (nth 0%nat xs 0)) by (rewrite map_length, seq_length; exact H). rewrite (map_nth (fun i => nth i xs 0) _ 0%nat), seq_nth by exact H. reflexivity.
Qed.
Lemma removelast_map {A B} (f : A -> B) l : removelast (map f l) = map f (removelast l).
Proof. induction l as [|a l IH]; [reflexivity|]. cbn [map removelast]. rewrite IH. destruct l; reflexivity. Qed.
Lemma removelast_seq a n : removelast (seq a n) = seq a (n - 1).
Proof. destruct n; [reflexivity|]. rewrite seq_S, removelast_last. f_equal. lia. Qed.
Lemma scalars_but_last xs : removelast xs = scalars (List.length xs - 1) xs.
Proof. rewrite <- (scalars_all xs) at 1. unfold scalars. rewrite removelast_map, removelast_seq. reflexivity. Qed.
Lemma nth_firstn_lt {A} (l : list A) d : forall m j, (j < m)%nat -> nth j (firstn m l) d = nth j l d.
Proof. induction l as [|a l IH]; intros [|m] [|j] H; cbn; try lia; try reflexivity. apply IH. lia. Qed.
Lemma nth_skipn_add {A} (l : list A) d : forall k j, nth j (skipn k l) d = nth (k + j) l d.
Proof. induction l as [|a l IH]; intros [|k] j; cbn; try reflexivity; [destruct j; reflexivity|]. apply IH. Qed.
Lemma reshape_rows {A} (n m : nat) (l : list A) d r : reshape n m l = Ok r -> List.length l = (n * m)%nat /\ r = map (fun i => map (fun j => nth (i * m + j) l d) (seq 0 m)) (seq 0 n).
Proof.
  unfold reshape. destruct (Nat.eqb_spec (List.length l) (n * m)) as [E|]; [|discriminate]. intros [= <-]. split; [exact E|]. apply map_ext_in. intros i H. apply in_seq in H.
  assert (L : List.length (firstn m (skipn (i * m) l)) = m) by (rewrite firstn_length, skipn_length, E; nia).
  apply (nth_ext _ _ d d); [rewrite L, map_length, seq_length; reflexivity|]. intros j Hj. rewrite L in Hj.
  rewrite (nth_indep (map _ _) d (nth (i * m + 0) l d)) by (rewrite map_length, seq_length; exact Hj).
  rewrite (map_nth (fun j => nth (i * m + j) l d) _ 0%nat), seq_nth by exact Hj. cbn [Nat.add].
  rewrite nth_firstn_lt by exact Hj. rewrite nth_skipn_add. reflexivity.
Qed.
Lemma sparse_snoc rows row : sparse (rows ++ [row]) = sparse rows ++ map (fun jx => (List.length rows, fst jx, snd jx)) (combine (seq 0 (List.length row)) row).
Proof.
  unfold sparse. rewrite app_length. cbn [List.length]. rewrite Nat.add_1_r, seq_S.
  assert (C : forall (A B : Type) (a : list A) (b : list B) x y, List.length a = List.length b -> combine (a ++ [x]) (b ++ [y]) = combine a b ++ [(x, y)]).
  { induction a as [|u a IH]; intros [|v b] x y H; cbn in H; try discriminate; [reflexivity|]. cbn. f_equal. apply IH. lia. }
  rewrite C by apply seq_length. rewrite flat_map_app. cbn. rewrite app_nil_r. reflexivity.
Qed.
Lemma combine_map_same {A B} (f : A -> B) l : combine l (map f l) = map (fun a => (a, f a)) l.
Proof. induction l as [|a l IH]; [reflexivity|]. cbn. f_equal. exact IH. Qed.
Lemma sparse_rows m xs n : sparse (map (fun i => map (fun j => nth (i * m + j) xs 0) (seq 0 m)) (seq 0 n)) = entries n m xs.
Proof.
  induction n as [|n IH]; [reflexivity|]. rewrite seq_S, map_app. cbn [map Nat.add]. rewrite sparse_snoc, IH, !map_length, !seq_length, combine_map_same, map_map. unfold entries.
  replace (S n * m)%nat with (n * m + m)%nat by lia. rewrite seq_app, map_app. f_equal. rewrite <- (Nat.add_0_r (0 + n * m)).
  assert (SH : forall a b k, seq (a + b) k = map (Nat.add a) (seq b k)).
  { intros a b k. revert b. induction k as [|k IHk]; intros b; [reflexivity|]. cbn. f_equal. rewrite <- IHk. f_equal. lia. }
  rewrite SH, map_map. apply map_ext_in. intros j H. apply in_seq in H. cbn [fst snd]. rewrite Nat.add_0_l.
  assert ((n * m + j) / m = n)%nat as -> by (symmetry; apply (Nat.div_unique _ _ _ j); lia). assert ((n * m + j) mod m = j)%nat as -> by (symmetry; apply (Nat.mod_unique _ _ n); lia). reflexivity.
Qed.
Lemma pipeline_shape n m xs d : pipeline_datasets n m xs = Ok d -> d = (entries (n - 1) m xs, entries n m xs).
Proof.
  unfold pipeline_datasets. destruct (reshape n m xs) as [r|] eqn:E; [|discriminate]. cbn [bind]. intros [= <-]. apply (reshape_rows n m xs 0) in E. destruct E as (_ & ->).
  rewrite removelast_map, removelast_seq, !sparse_rows. reflexivity.
Qed.
Lemma class_shape c xs d : List.length xs = (sample_dim c * num_samples_cc c + num_samples_cc c)%nat -> class_datasets c xs = Ok d ->
  d = (examples (num_samples_cc c) (sample_dim c) (num_samples_cc c) xs, examples (num_samples_cc c) (sample_dim c) (num_samples_cc c - 1) xs).
Proof.
  intros L. unfold class_datasets. destruct (reshape _ _ _) as [r|] eqn:E; [|discriminate]. cbn [bind]. intros [= <-]. apply (reshape_rows _ _ _ 0) in E. destruct E as (EL & ->).
  set (n := num_samples_cc c) in *. set (k := sample_dim c) in *.
  assert (FE : map (fun i => map (fun j => nth (i * k + j) (firstn (k * n) xs) 0) (seq 0 k)) (seq 0 n) = map (fun i => map (fun j => nth (i * k + j) xs 0) (seq 0 k)) (seq 0 n)).
  { apply map_ext_in. intros i Hi. apply map_ext_in. intros j Hj. apply in_seq in Hi, Hj. rewrite <- (firstn_skipn (k * n) xs) at 2. rewrite app_nth1 by (rewrite EL; nia). reflexivity. }
  assert (LE : skipn (k * n) xs = map (fun i => nth (k * n + i) xs 0) (seq 0 n)).
  { rewrite <- (scalars_all (skipn (k * n) xs)). unfold scalars. rewrite skipn_length, L. replace (k * n + n - k * n)%nat with n by lia. apply map_ext_in. intros i Hi.
    rewrite <- (firstn_skipn (k * n) xs) at 2. rewrite app_nth2; rewrite EL; [|lia]. f_equal. lia. }
  rewrite FE, LE. unfold examples. rewrite !removelast_map, !removelast_seq. reflexivity.
Qed.
Lemma values_length ps t xs : values ps t xs -> List.length xs = List.length ps.
Proof. intros (l & _ & F & ->). rewrite map_length. induction F; cbn; congruence. Qed.
Lemma vizier_space_length c ps : vizier_space c ps -> List.length ps = num_vizier_parameters c.
Proof. unfold vizier_space. destruct (vc_type c); [intros []|intros (lo & hi & _ & _ & ->)|intros ->]; rewrite map_length, seq_length; reflexivity. Qed.

(** ** Histories *)
Section Histories.
  Context {S : Type} (study : list param -> res S) (suggest : S -> S * res (list (option trial))) (complete : S -> trial -> xr -> S * res unit).
  Lemma log_study_ok ps v : log_study study ps = Ok v -> study ps = Ok (fst v) /\ snd v = [].
  Proof. unfold log_study. destruct (study ps); [|discriminate]. cbn. intros [= <-]. auto. Qed.
  Lemma vizier_history {D} (datasets : list R -> res (D * D)) c g v h g' s' log : new_vizier (log_study study) c = Ok (g, v) ->
    returned (gen_call (log_suggest suggest) (log_complete complete) datasets) (g, v) h (g', (s', log)) ->
    exists ps, vizier_space c ps /\ study ps = Ok (fst v) /\ ((forall t, In (Suggested t) log -> in_search_space ps t) ->
      exists ts, List.length ts = List.length h /\ protocol None (combine (map fst h) ts) log /\ Forall2 (fun rd t => exists xs, values ps t xs /\ datasets xs = Ok (snd rd)) h ts).
  Proof.
    intros HN HR. destruct (vizier_space_ok _ _ _ _ HN) as (ps & VS & ES & N & ->). exists ps. split; [exact VS|]. destruct (log_study_ok _ _ ES) as (E1 & E2). split; [exact E1|].
    intros HS. destruct v as [s l]. cbn in E2. subst l. rewrite <- (vizier_space_length _ _ VS) in *.
    exact (space_history suggest complete datasets _ ps s s' g' log h (name_inj "x") N HR HS).
  Qed.
  Lemma class_history c g v h g' s' log : new_class (log_study study) c = Ok (g, v) ->
    returned (gen_call (log_suggest suggest) (log_complete complete) (class_datasets c)) (g, v) h (g', (s', log)) ->
    study (class_space c) = Ok (fst v) /\ ((forall t, In (Suggested t) log -> in_search_space (class_space c) t) ->
      exists ts, List.length ts = List.length h /\ protocol None (combine (map fst h) ts) log
        /\ Forall2 (fun rd t => exists xs, values (class_space c) t xs /\ class_datasets c xs = Ok (snd rd)) h ts).
  Proof.
    intros HN HR. destruct (class_space_ok _ _ _ _ HN) as (ES & N & ->). destruct (log_study_ok _ _ ES) as (E1 & E2). split; [exact E1|].
    intros HS. destruct v as [s l]. cbn in E2. subst l.
    assert (L : List.length (class_space c) = (sample_dim c * num_samples_cc c + num_samples_cc c)%nat) by (unfold class_space; rewrite app_length, !map_length, !seq_length; reflexivity).
    rewrite <- L in *. refine (space_history suggest complete (class_datasets c) (class_name (sample_dim c * num_samples_cc c)) (class_space c) s s' g' log h (class_name_inj _) N HR HS).
  Qed.
  Lemma class_space_length c : List.length (class_space c) = (sample_dim c * num_samples_cc c + num_samples_cc c)%nat.
  Proof. unfold class_space. rewrite app_length, !map_length, !seq_length. reflexivity. Qed.
End Histories.
Lemma Forall2_imp {A B} (P Q : A -> B -> Prop) l1 l2 : (forall a b, P a b -> Q a b) -> Forall2 P l1 l2 -> Forall2 Q l1 l2.
Proof. intros H F. induction F; constructor; auto. Qed.

(** ** Calls return *)
Lemma values_made {D} (datasets : list R -> res (D * D)) (name : nat -> string) ps t : (forall i j, name i = name j -> i = j) ->
  map (fun p => match p with FloatParam n _ _ | IntParam n _ _ => n end) ps = map name (seq 0 (List.length ps)) -> in_search_space ps t ->
  (forall xs, List.length xs = List.length ps -> exists d, datasets xs = Ok d) -> exists d, made datasets (numbered name (List.length ps)) (List.length ps) t d.
Proof.
  intros U N (l & P & F) HD. pose proof (extract_values name ps t l U P F) as E. rewrite (space_names _ _ F) in E. specialize (E N).
  destruct (HD (map snd l)) as (d & Ed); [rewrite map_length; clear - F; induction F; cbn; congruence|]. exists d, (map snd l). auto.
Qed.
Lemma call_returns {S D} suggest complete (datasets : list R -> res (D * D)) (name : nat -> string) ps p (s : S) r : (forall i j, name i = name j -> i = j) ->
  map (fun p => match p with FloatParam n _ _ | IntParam n _ _ => n end) ps = map name (seq 0 (List.length ps)) -> answers suggest complete ps ->
  match p with Some t => in_search_space ps t | None => True end -> (forall xs, List.length xs = List.length ps -> exists d, datasets xs = Ok d) ->
  exists p' s' d, gen_call suggest complete datasets r (before (numbered name (List.length ps)) (List.length ps) p, s) = ((before (numbered name (List.length ps)) (List.length ps) (Some p'), s'), Ok d) /\ in_search_space ps p'.
Proof.
  intros U N (AS & AC) HP HD. set (table := numbered name (List.length ps)) in *. set (n := List.length ps) in *.
  assert (LOAD : forall tr s, exists t s1 d, in_search_space ps t /\ load_trial suggest (mkGen table n false tr, s) = ((mkGen table n true (Some t), s1), Ok tt)
    /\ (let? q := extract_params (mkGen table n true (Some t)) in datasets q) = Ok d).
  { intros tr s0. destruct (AS s0) as (s1 & l & t & E & EL & IT). destruct (values_made datasets name ps t U N IT HD) as (d & q & E1 & E2). exists t, s1, d. split; [exact IT|].
    unfold load_trial, get_trial. cbn [trial_loaded]. rewrite E. pose proof (last_rev l) as LR. rewrite EL in LR. destruct (rev l) as [|o l']; [discriminate|]. subst o. cbn. split; [reflexivity|].
    unfold extract_params. cbn [last_trial str_to_idx num_params]. unfold table, n. rewrite E1. exact E2. }
  unfold gen_call. destruct p as [t0|].
  - destruct (truthy r) as [x|].
    + unfold complete_trial at 1. cbn [before last_trial]. destruct (AC s t0 x) as (s1 & ->). cbn [before str_to_idx num_params trial_loaded]. destruct (LOAD (Some t0) s1) as (t & s2 & d & IT & -> & E). exists t, s2, d. cbn [fst before]. rewrite E. auto.
    + destruct (values_made datasets name ps t0 U N HP HD) as (d & q & E1 & E2). exists t0, s, d. cbn. unfold extract_params. cbn [last_trial str_to_idx num_params]. unfold table, n. rewrite E1. cbn [bind]. rewrite E2. auto.
  - assert (E0 : match truthy r with Some x => complete_trial complete x (before table n None, s) | None => ((before table n None, s), Ok tt) end = ((before table n None, s), Ok tt)) by (destruct (truthy r); reflexivity).
    rewrite E0. destruct (LOAD None s) as (t & s1 & d & IT & EQ & E). change (before table n None) with (mkGen table n false None). rewrite EQ. exists t, s1, d. cbn [fst before]. rewrite E. auto.
Qed.
(** Any number of calls, whatever results they are given. *)
Lemma calls_return {S D} suggest complete (datasets : list R -> res (D * D)) (name : nat -> string) ps : (forall i j, name i = name j -> i = j) ->
  map (fun p => match p with FloatParam n _ _ | IntParam n _ _ => n end) ps = map name (seq 0 (List.length ps)) -> answers suggest complete ps ->
  (forall xs, List.length xs = List.length ps -> exists d, datasets xs = Ok d) ->
  forall rs p (s : S), match p with Some t => in_search_space ps t | None => True end ->
  exists h st, map fst h = rs /\ returned (gen_call suggest complete datasets) (before (numbered name (List.length ps)) (List.length ps) p, s) h st.
Proof.
  intros U N A HD. induction rs as [|r rs IH]; intros p s HP.
  - exists [], (before (numbered name (List.length ps)) (List.length ps) p, s). split; [reflexivity | constructor].
  - destruct (call_returns suggest complete datasets name ps p s r U N A HP HD) as (t & s1 & d & E & IT). destruct (IH (Some t) s1 IT) as (h & st & EH & R).
    exists ((r, d) :: h), st. split; [cbn; rewrite EH; reflexivity|]. econstructor; eassumption.
Qed.
Lemma reshape_ok {A} n m (l : list A) : List.length l = (n * m)%nat -> exists r, reshape n m l = Ok r.
Proof. intros E. unfold reshape. rewrite E, Nat.eqb_refl. eauto. Qed.

(** ** Ranges *)
Lemma values_forall ps t xs (P : R -> Prop) : values ps t xs -> (forall p name x, In p ps -> in_space p name x -> P x) -> Forall P xs.
Proof.
  intros (l & _ & F & ->) H. apply Forall_forall. intros x I. apply in_map_iff in I. destruct I as ([nm v] & <- & I).
  assert (G : exists p, In p ps /\ in_space p nm v).
  { clear H. induction F as [|p nv ps l HP F IH]; [destruct I|]. destruct I as [->|I]; [exists p; split; [left; reflexivity | exact HP]|]. destruct (IH I) as (q & Q1 & Q2). exists q. split; [right; exact Q1 | exact Q2]. }
  destruct G as (p & IP & HP). exact (H p nm v IP HP).
Qed.
Lemma float_range c ps t xs : vc_type c = DATA_TYPE_FLOAT -> vizier_space c ps -> values ps t xs -> Forall (fun x => vc_min c <= x <= vc_max c) xs.
Proof.
  intros T VS V. apply (values_forall _ _ _ _ V). unfold vizier_space in VS. rewrite T in VS. subst ps. intros p nm x I. apply in_map_iff in I. destruct I as (i & <- & _). cbn. intros (_ & B). exact B.
Qed.
Lemma int_range c ps t xs : vc_type c = DATA_TYPE_INT32 -> vizier_space c ps -> values ps t xs -> vc_min c <= 0 <= vc_max c -> Forall (fun x => vc_min c <= x <= vc_max c /\ exists z, x = IZR z) xs.
Proof.
  intros T VS V B. apply (values_forall _ _ _ _ V). unfold vizier_space in VS. rewrite T in VS. destruct VS as (lo & hi & (_ & L) & (H & _) & ->). intros p nm x I. apply in_map_iff in I. destruct I as (i & <- & _).
  cbn. intros (_ & z & -> & Z1 & Z2). apply IZR_le in Z1, Z2. specialize (L ltac:(lra)). specialize (H ltac:(lra)). split; [lra | eauto].
Qed.
Lemma forall2_nth {A B} (P : A -> B -> Prop) l1 l2 a b : Forall2 P l1 l2 -> forall i, (i < List.length l1)%nat -> P (nth i l1 a) (nth i l2 b).
Proof. intros F. induction F; intros i HI; [cbn in HI; lia|]. destruct i; cbn; [assumption|]. apply IHF. cbn in HI. lia. Qed.
Lemma class_value c t xs i : values (class_space c) t xs -> let nf := (sample_dim c * num_samples_cc c)%nat in
  ((i < nf)%nat -> cc_min c <= nth i xs 0 <= cc_max c) /\
  ((nf <= i < nf + num_samples_cc c)%nat -> exists z, nth i xs 0 = IZR z /\ (0 <= z <= Z.of_nat (num_classes c))%Z).
Proof.
  intros (l & _ & F & ->) nf. pose proof (class_space_length c) as L. fold nf in L.
  assert (Q : forall i, (i < nf + num_samples_cc c)%nat -> in_space (nth i (class_space c) (FloatParam "" 0 0)) (fst (nth i l (""%string, 0))) (nth i (map snd l) 0)).
  { intros k Hk. rewrite (map_nth snd l (""%string, 0) k : nth k (map snd l) 0 = snd (nth k l (""%string, 0))). apply (forall2_nth _ _ _ (FloatParam "" 0 0) (""%string, 0) F). lia. }
  split; intros H; specialize (Q i ltac:(lia)); unfold class_space in Q; fold nf in Q.
  - rewrite app_nth1 in Q by (rewrite map_length, seq_length; exact H).
    rewrite (nth_indep _ _ ((fun i => FloatParam ("float" ++ decimal i)%string (cc_min c) (cc_max c)) 0%nat)), (map_nth (fun i => FloatParam ("float" ++ decimal i)%string (cc_min c) (cc_max c)) _ 0%nat) in Q by (rewrite map_length, seq_length; exact H). apply Q.
  - rewrite app_nth2 in Q by (rewrite map_length, seq_length; lia). rewrite map_length, seq_length in Q.
    rewrite (nth_indep _ _ ((fun i => IntParam ("int" ++ decimal i)%string 0 (Z.of_nat (num_classes c))) 0%nat)), (map_nth (fun i => IntParam ("int" ++ decimal i)%string 0 (Z.of_nat (num_classes c))) _ 0%nat) in Q by (rewrite map_length, seq_length; lia). apply Q.
Qed.

(** ** The aggregation mechanism *)
Lemma aggregation_runs {W} (engine : R -> R -> list (nat * nat * R) -> W -> res (list (nat * list R) * W)) eps delta data : forall n w rows w', aggregation_call engine eps delta data n w = Ok (rows, w') ->
  exists results, List.length results = n /\ repeated (engine eps delta data) w results w' /\ rows = map (fun r => concat (map snd r)) results.
Proof.
  induction n as [|n IH]; intros w rows w'; cbn [aggregation_call].
  - intros [= <- <-]. exists []. repeat split. constructor.
  - unfold compute_aggregations. destruct (engine eps delta data w) as [[r w1]|] eqn:E; [|discriminate]. cbn [bind]. destruct (aggregation_call engine eps delta data n w1) as [[rs w2]|] eqn:E2; [|discriminate]. cbn [bind]. intros [= <- <-].
    destruct (IH _ _ _ E2) as (results & L & R & ->). exists (r :: results). split; [cbn; lia|]. split; [econstructor; eassumption | reflexivity].
Qed.

(** ** What the aggregation takes as a user *)
Lemma entries_in n m xs x : In x (entries n m xs) <-> exists k, (k < n * m)%nat /\ x = ((k / m)%nat, (k mod m)%nat, nth k xs 0).
Proof. unfold entries. rewrite in_map_iff. setoid_rewrite in_seq. split; [intros (k & <- & H); exists k; split; [lia | reflexivity] | intros (k & H & ->); exists k; split; [reflexivity | lia]]. Qed.
Lemma rows_neighbours n m xs : (1 <= n)%nat -> only_differ_in (fun x => fst (fst x)) (n - 1) (entries (n - 1) m xs) (entries n m xs).
Proof.
  intros Hn x U. rewrite !entries_in. split; intros (k & H & E); exists k; (split; [|exact E]); [nia|]. subst x. cbn in U.
  assert ((k / m < n)%nat) by (apply Nat.div_lt_upper_bound; lia). assert ((k / m < n - 1)%nat) by lia. pose proof (Nat.div_mod k m ltac:(lia)). pose proof (Nat.mod_upper_bound k m ltac:(lia)). nia.
Qed.
Lemma columns_not_neighbours n m xs u : (1 <= n)%nat -> (2 <= m)%nat -> ~ only_differ_in privacy_id_extractor u (entries (n - 1) m xs) (entries n m xs).
Proof.
  intros Hn Hm H.
  assert (G : forall j, (j < m)%nat -> j <> u -> False).
  { intros j Hj NE. specialize (H ((n - 1)%nat, j, nth ((n - 1) * m + j) xs 0) NE). rewrite !entries_in in H.
    assert (D : (((n - 1) * m + j) / m = n - 1)%nat) by (symmetry; apply (Nat.div_unique _ _ _ j); lia).
    assert (M : (((n - 1) * m + j) mod m = j)%nat) by (symmetry; apply (Nat.mod_unique _ _ (n - 1)); lia).
    destruct (proj2 H) as (k & Hk & E). { exists ((n - 1) * m + j)%nat. rewrite D, M. split; [nia | reflexivity]. }
    injection E as E1 _ _. assert ((k / m < n - 1)%nat) by (apply Nat.div_lt_upper_bound; lia). lia. }
  destruct (Nat.eq_dec u 0) as [->|NE]; [apply (G 1%nat) | apply (G 0%nat)]; lia.
Qed.
