(** The statements about generators, and what is false. *)
From Coq Require Import String DecimalString Permutation.
From Verif Require Import Base Exn XReal TypesGen ModelGen SpecGen ProofGen ProofGenRun ProofGenData.

Lemma scalar_history {S} (study : list param -> res S) suggest complete c g v h g' s' log :
  new_vizier (log_study study) c = Ok (g, v) -> returned (gen_call (log_suggest suggest) (log_complete complete) scalar_datasets) (g, v) h (g', (s', log)) ->
  exists ps, vizier_space c ps /\ study ps = Ok (fst v) /\ ((forall t, In (Suggested t) log -> in_search_space ps t) ->
    exists ts, List.length ts = List.length h /\ protocol None (combine (map fst h) ts) log
      /\ Forall2 (fun rd t => exists xs, values ps t xs /\ snd (snd rd) = xs /\ fst (snd rd) = scalars (num_vizier_parameters c - 1) xs) h ts).
Proof.
  intros HN HR. destruct (vizier_history study suggest complete _ _ _ _ _ _ _ _ HN HR) as (ps & VS & ES & H). exists ps. split; [exact VS|]. split; [exact ES|].
  intros HS. destruct (H HS) as (ts & L & P & F). exists ts. split; [exact L|]. split; [exact P|]. revert F. apply Forall2_imp. intros [r [d1 d2]] t (xs & V & [= <- <-]). exists xs. split; [exact V|]. split; [reflexivity|].
  cbn. rewrite <- (vizier_space_length _ _ VS), <- (values_length _ _ _ V). apply scalars_but_last.
Qed.
Lemma pipeline_history {S} (study : list param -> res S) suggest complete c ids parts g v h g' s' log :
  new_vizier (log_study study) (pipeline_config ids parts c) = Ok (g, v) -> returned (gen_call (log_suggest suggest) (log_complete complete) (pipeline_datasets ids parts)) (g, v) h (g', (s', log)) ->
  exists ps, vizier_space (mkVizierConfig (ids * parts) (vc_type c) (vc_min c) (vc_max c)) ps /\ study ps = Ok (fst v) /\ ((forall t, In (Suggested t) log -> in_search_space ps t) ->
    exists ts, List.length ts = List.length h /\ protocol None (combine (map fst h) ts) log
      /\ Forall2 (fun rd t => exists xs, values ps t xs /\ snd (snd rd) = entries ids parts xs /\ fst (snd rd) = entries (ids - 1) parts xs) h ts).
Proof.
  intros HN HR. destruct (vizier_history study suggest complete _ _ _ _ _ _ _ _ HN HR) as (ps & VS & ES & H). exists ps. split; [exact VS|]. split; [exact ES|].
  intros HS. destruct (H HS) as (ts & L & P & F). exists ts. split; [exact L|]. split; [exact P|]. revert F. apply Forall2_imp. intros [r d] t (xs & V & E). cbn in E. apply pipeline_shape in E. subst d. exists xs. repeat split; exact V.
Qed.
Lemma classification_history {S} (study : list param -> res S) suggest complete c g v h g' s' log :
  new_class (log_study study) c = Ok (g, v) -> returned (gen_call (log_suggest suggest) (log_complete complete) (class_datasets c)) (g, v) h (g', (s', log)) ->
  study (class_space c) = Ok (fst v) /\ ((forall t, In (Suggested t) log -> in_search_space (class_space c) t) ->
    exists ts, List.length ts = List.length h /\ protocol None (combine (map fst h) ts) log
      /\ Forall2 (fun rd t => exists xs, values (class_space c) t xs /\ fst (snd rd) = examples (num_samples_cc c) (sample_dim c) (num_samples_cc c) xs
            /\ snd (snd rd) = examples (num_samples_cc c) (sample_dim c) (num_samples_cc c - 1) xs) h ts).
Proof.
  intros HN HR. destruct (class_history study suggest complete c g v h g' s' log HN HR) as (ES & H). split; [exact ES|].
  intros HS. destruct (H HS) as (ts & L & P & F). exists ts. split; [exact L|]. split; [exact P|]. revert F. apply Forall2_imp. intros [r d] t (xs & V & E). cbn in E. apply class_shape in E; [|rewrite (values_length _ _ _ V); apply class_space_length]. subst d. exists xs. repeat split; exact V.
Qed.
Lemma class_ranges c t xs k F L : values (class_space c) t xs -> (k <= num_samples_cc c)%nat -> examples (num_samples_cc c) (sample_dim c) k xs = (F, L) ->
  List.length F = k /\ List.length L = k /\ Forall (fun row => List.length row = sample_dim c /\ Forall (fun x => cc_min c <= x <= cc_max c) row) F
  /\ Forall (fun y => exists z, y = IZR z /\ (0 <= z <= Z.of_nat (num_classes c))%Z) L.
Proof.
  intros V HK [= <- <-]. rewrite !map_length, !seq_length. split; [reflexivity|]. split; [reflexivity|]. split; apply Forall_forall; intros y I; apply in_map_iff in I; destruct I as (i & <- & Hi); apply in_seq in Hi.
  - rewrite map_length, seq_length. split; [reflexivity|]. apply Forall_forall. intros x I. apply in_map_iff in I. destruct I as (j & <- & Hj). apply in_seq in Hj. apply (class_value c t xs _ V). nia.
  - apply (class_value c t xs _ V). lia.
Qed.
(** Calls return, for every list of results. *)
Lemma scalar_returns {S} (study : list param -> res S) suggest complete c g v : new_vizier study c = Ok (g, v) -> (forall ps, vizier_space c ps -> answers suggest complete ps) ->
  forall rs, exists h st, map fst h = rs /\ returned (gen_call suggest complete scalar_datasets) (g, v) h st.
Proof.
  intros HN HA rs. destruct (vizier_space_ok _ _ _ _ HN) as (ps & VS & _ & N & ->). specialize (HA ps VS). rewrite <- (vizier_space_length _ _ VS) in *.
  apply (calls_return suggest complete scalar_datasets _ ps (name_inj "x") N HA); [intros; eexists; reflexivity | exact I].
Qed.
Lemma pipeline_returns {S} (study : list param -> res S) suggest complete c ids parts g v : new_vizier study (pipeline_config ids parts c) = Ok (g, v) ->
  (forall ps, vizier_space (mkVizierConfig (ids * parts) (vc_type c) (vc_min c) (vc_max c)) ps -> answers suggest complete ps) ->
  forall rs, exists h st, map fst h = rs /\ returned (gen_call suggest complete (pipeline_datasets ids parts)) (g, v) h st.
Proof.
  intros HN HA rs. destruct (vizier_space_ok _ _ _ _ HN) as (ps & VS & _ & N & ->). specialize (HA ps VS). pose proof (vizier_space_length _ _ VS) as L. rewrite <- L in *. cbn in L.
  apply (calls_return suggest complete _ _ ps (name_inj "x") N HA); [|exact I]. intros xs E. unfold pipeline_datasets. destruct (reshape_ok ids parts xs) as (r & ->); [lia|]. cbn. eauto.
Qed.
Lemma class_returns {S} (study : list param -> res S) suggest complete c g v : new_class study c = Ok (g, v) -> answers suggest complete (class_space c) ->
  forall rs, exists h st, map fst h = rs /\ returned (gen_call suggest complete (class_datasets c)) (g, v) h st.
Proof.
  intros HN HA rs. destruct (class_space_ok _ _ _ _ HN) as (_ & N & ->). pose proof (class_space_length c) as L. rewrite <- L in *.
  apply (calls_return suggest complete _ _ (class_space c) (class_name_inj _) N HA); [|exact I]. intros xs E. unfold class_datasets. destruct (reshape_ok (num_samples_cc c) (sample_dim c) (firstn (sample_dim c * num_samples_cc c) xs)) as (r & ->); [rewrite firstn_length; lia|]. cbn. eauto.
Qed.
(** The constructor fails without a type, and otherwise only if the study does. *)
Lemma construct {S} (study : list param -> res S) c : (vc_type c = DATA_TYPE_UNSPECIFIED -> new_vizier study c = Err NotImplementedError) /\
  (vc_type c <> DATA_TYPE_UNSPECIFIED -> (forall ps, exists s, study ps = Ok s) -> exists g s, new_vizier study c = Ok (g, s)).
Proof.
  unfold new_vizier, params_name_mapping. rewrite name_table_eq by reflexivity. cbn [bind]. unfold add_params. split.
  - intros ->. reflexivity.
  - intros T HS. destruct (vc_type c); [congruence| |]; cbn [bind]; match goal with |- context [study ?p] => destruct (HS p) as (s & ->) end; cbn; eauto.
Qed.

(** ** A small service *)
Definition one_float : vizier_config := mkVizierConfig 2 DATA_TYPE_FLOAT (-1) 1.
Definition trial_no (k : nat) : trial := mkTrial k [("x1"%string, 1); ("x0"%string, 0)].
Definition tiny_study (ps : list param) : res nat := Ok 0%nat.
Definition tiny_suggest (fails : nat -> bool) (k : nat) : nat * res (list (option trial)) := (S k, if fails k then Err ValueError else Ok [Some (trial_no k)]).
Definition tiny_complete (k : nat) (t : trial) (x : xr) : nat * res unit := (k, Ok tt).
Definition tiny_call fails := gen_call (log_suggest (tiny_suggest fails)) (log_complete tiny_complete) scalar_datasets.
Definition tiny_gen : gen_state := mkGen [("x0"%string, 0%nat); ("x1"%string, 1%nat)] 2 false None.
Lemma tiny_new : new_vizier (log_study tiny_study) one_float = Ok (tiny_gen, (0%nat, [])).
Proof. reflexivity. Qed.
Definition after (loaded : bool) (k n : nat) (log : list service_event) := (mkGen [("x0"%string, 0%nat); ("x1"%string, 1%nat)] 2 loaded (Some (trial_no k)), (n, log)).
Lemma tiny_first fails r : fails 0%nat = false -> tiny_call fails r (tiny_gen, (0%nat, [])) = (after true 0 1 [Suggested (trial_no 0)], Ok ([0], [0; 1])).
Proof.
  intros F. unfold tiny_call, gen_call.
  assert (E0 : match truthy r with Some x => complete_trial (log_complete tiny_complete) x (tiny_gen, (0%nat, [])) | None => ((tiny_gen, (0%nat, [])), Ok tt) end = ((tiny_gen, (0%nat, [])), Ok tt)) by (destruct (truthy r); reflexivity).
  rewrite E0. unfold load_trial, get_trial, log_suggest, tiny_suggest. cbn [fst snd tiny_gen trial_loaded]. rewrite F. reflexivity.
Qed.
Lemma tiny_report fails loaded k n log x : fails n = false -> x <> Fin 0 -> tiny_call fails (Some x) (after loaded k n log) = (after true n (S n) (log ++ [Completed (trial_no k) x; Suggested (trial_no n)]), Ok ([0], [0; 1])).
Proof.
  intros F X. unfold tiny_call, gen_call. assert (truthy (Some x) = Some x) as ->. { pose proof (truthy_spec (Some x)) as T. cbn in *. destruct (xeqb x (Fin 0)); [|reflexivity]. destruct T as [T|T]; [discriminate | injection T as ->; congruence]. }
  unfold after, complete_trial, log_complete, tiny_complete. cbn [last_trial fst snd]. unfold load_trial, get_trial, log_suggest, tiny_suggest. cbn [fst snd trial_loaded]. rewrite F. cbn. rewrite <- app_assoc. reflexivity.
Qed.
Lemma tiny_fail fails loaded k n log x : fails n = true -> x <> Fin 0 -> tiny_call fails (Some x) (after loaded k n log) = (after false k (S n) (log ++ [Completed (trial_no k) x]), Err ValueError).
Proof.
  intros F X. unfold tiny_call, gen_call. assert (truthy (Some x) = Some x) as ->. { pose proof (truthy_spec (Some x)) as T. cbn in *. destruct (xeqb x (Fin 0)); [|reflexivity]. destruct T as [T|T]; [discriminate | injection T as ->; congruence]. }
  unfold after, complete_trial, log_complete, tiny_complete. cbn [last_trial fst snd]. unfold load_trial, get_trial, log_suggest, tiny_suggest. cbn [fst snd trial_loaded]. rewrite F. cbn. reflexivity.
Qed.
Lemma tiny_zero fails k n log : tiny_call fails (Some (Fin 0)) (after true k n log) = (after true k n log, Ok ([0], [0; 1])).
Proof. unfold tiny_call, gen_call. assert (truthy (Some (Fin 0)) = None) as -> by (cbn; rewrite Reqb_true by reflexivity; reflexivity). reflexivity. Qed.
Lemma tiny_in_space k : in_search_space (map (fun i => FloatParam ("x" ++ decimal i)%string (-1) 1) (seq 0 2)) (trial_no k).
Proof.
  exists [("x0"%string, 0); ("x1"%string, 1)]. split; [apply perm_swap|]. repeat constructor; cbn; lra.
Qed.
(** A zero result is not reported. *)
Lemma zero_result : exists (c : vizier_config) g v h st log, new_vizier (log_study tiny_study) c = Ok (g, v)
  /\ returned (tiny_call (fun _ => false)) (g, v) h (st, (1%nat, log)) /\ map fst h = [None; Some (Fin 0)] /\ log = [Suggested (trial_no 0)].
Proof.
  exists one_float, tiny_gen, (0%nat, []), [(None, ([0], [0; 1])); (Some (Fin 0), ([0], [0; 1]))], (fst (after true 0 1 [Suggested (trial_no 0)])), [Suggested (trial_no 0)].
  split; [exact tiny_new|]. split; [|split; reflexivity].
  eapply returned_cons; [apply tiny_first; reflexivity|]. eapply returned_cons; [apply tiny_zero|]. apply returned_nil.
Qed.
Lemma every_result_false : ~ (forall (S : Type) (study : list param -> res S) suggest complete c g v h g' s' log, new_vizier (log_study study) c = Ok (g, v) ->
  returned (gen_call (log_suggest suggest) (log_complete complete) scalar_datasets) (g, v) h (g', (s', log)) ->
  forall i x, nth_error (map fst h) (Datatypes.S i) = Some (Some x) -> exists t, In (Completed t x) log).
Proof.
  intros H. destruct zero_result as (c & g & v & h & st & log & HN & HR & HM & HL).
  specialize (H nat tiny_study _ _ c g v h st 1%nat log HN HR 0%nat (Fin 0)). rewrite HM in H. destruct (H eq_refl) as (t & I). rewrite HL in I. destruct I as [I|[]]. discriminate.
Qed.
(** After a failure of the service a trial is completed twice, with two results. *)
Lemma completed_once_false : ~ (forall (S : Type) (study : list param -> res S) suggest complete c g v r1 r2 r3 g1 g2 g3 v1 v2 s' log a1 a2 a3, new_vizier (log_study study) c = Ok (g, v) ->
  gen_call (log_suggest suggest) (log_complete complete) scalar_datasets r1 (g, v) = ((g1, v1), a1) ->
  gen_call (log_suggest suggest) (log_complete complete) scalar_datasets r2 (g1, v1) = ((g2, v2), a2) ->
  gen_call (log_suggest suggest) (log_complete complete) scalar_datasets r3 (g2, v2) = ((g3, (s', log)), a3) ->
  forall t x y, In (Completed t x) log -> In (Completed t y) log -> x = y).
Proof.
  intros H. pose (fails := fun k : nat => Nat.eqb k 1).
  pose proof (tiny_first fails None eq_refl) as E1.
  pose proof (tiny_fail fails true 0 1 [Suggested (trial_no 0)] (Fin 1) eq_refl) as E2.
  pose proof (tiny_report fails false 0 2 ([Suggested (trial_no 0)] ++ [Completed (trial_no 0) (Fin 1)]) (Fin 2) eq_refl) as E3.
  assert (N1 : Fin 1 <> Fin 0) by (intros [= K]; lra). assert (N2 : Fin 2 <> Fin 0) by (intros [= K]; lra). specialize (E2 N1). specialize (E3 N2).
  specialize (H nat tiny_study _ _ one_float tiny_gen (0%nat, []) None (Some (Fin 1)) (Some (Fin 2)) _ _ _ _ _ _ _ _ _ _ tiny_new E1 E2 E3 (trial_no 0) (Fin 1) (Fin 2)).
  cbn in H. assert (K : Fin 1 = Fin 2) by (apply H; tauto). injection K as K. lra.
Qed.
(** Integers outside the bounds of the configuration. *)
Lemma int_range_false : ~ (forall c ps t xs, vc_type c = DATA_TYPE_INT32 -> vizier_space c ps -> values ps t xs -> Forall (fun x => vc_min c <= x <= vc_max c) xs).
Proof.
  intros H. specialize (H (mkVizierConfig 1 DATA_TYPE_INT32 (1/2) 3) [IntParam "x0" 0 3] (mkTrial 0 [("x0"%string, 0)]) [0] eq_refl).
  assert (Forall (fun x => 1/2 <= x <= 3) [0]) as K.
  { apply H.
    - cbn. exists 0%Z, 3%Z. unfold toward_zero. cbn. repeat split; try (intros; lra); try reflexivity.
    - exists [("x0"%string, 0)]. split; [apply Permutation_refl|]. split; [|reflexivity]. constructor; [|constructor]. cbn. split; [reflexivity|]. exists 0%Z. split; [reflexivity | lia]. }
  inversion K; lra.
Qed.
(** One label too many. *)
Lemma labels_false : ~ (forall c t xs F L, values (class_space c) t xs -> examples (num_samples_cc c) (sample_dim c) (num_samples_cc c) xs = (F, L) ->
  Forall (fun y => exists z, y = IZR z /\ (0 <= z < Z.of_nat (num_classes c))%Z) L).
Proof.
  intros H. specialize (H (mkClassConfig 0 1 1 1 2) (mkTrial 0 [("float0"%string, 0); ("int1"%string, 2)]) [0; 2] [[0]] [2]).
  assert (K : Forall (fun y => exists z, y = IZR z /\ (0 <= z < 2)%Z) [2]).
  { apply H; [|reflexivity]. exists [("float0"%string, 0); ("int1"%string, 2)]. split; [apply Permutation_refl|]. split; [|reflexivity].
    constructor; [cbn; split; [reflexivity | lra]|]. constructor; [|constructor]. cbn. split; [reflexivity|]. exists 2%Z. split; [reflexivity | lia]. }
  inversion K as [|? ? (z & E & B) _]; subst. apply eq_IZR in E. lia.
Qed.
(** The datasets are neighbours by rows, and the mechanism's users are columns. *)
Lemma users_columns (n m : nat) xs : (1 <= n)%nat -> (2 <= m)%nat -> List.length xs = (n * m)%nat -> exists d1 d2, pipeline_datasets n m xs = Ok (d1, d2)
  /\ only_differ_in (fun x => fst (fst x)) (n - 1) d1 d2 /\ forall u, ~ only_differ_in privacy_id_extractor u d1 d2.
Proof.
  intros Hn Hm L. unfold pipeline_datasets. destruct (reshape_ok n m xs L) as (r & E). pose proof (pipeline_shape n m xs) as P. unfold pipeline_datasets in P. rewrite E in *. cbn [bind] in *.
  specialize (P _ eq_refl). injection P as -> ->. do 2 eexists. split; [reflexivity|]. split; [apply rows_neighbours; exact Hn | intros u; apply columns_not_neighbours; assumption].
Qed.
Lemma neighbours_false : ~ (forall n m xs d1 d2, pipeline_datasets n m xs = Ok (d1, d2) -> exists u, only_differ_in privacy_id_extractor u d1 d2).
Proof. intros H. destruct (users_columns 2 2 [1; 2; 3; 4] ltac:(lia) ltac:(lia) eq_refl) as (d1 & d2 & E & _ & N). destruct (H _ _ _ _ _ E) as (u & U). exact (N u U). Qed.
Lemma vizier_range c ps t xs : vizier_space c ps -> values ps t xs -> (vc_type c = DATA_TYPE_FLOAT \/ vc_min c <= 0 <= vc_max c) -> Forall (fun x => vc_min c <= x <= vc_max c) xs.
Proof.
  intros VS V H. destruct (vc_type c) eqn:T.
  - unfold vizier_space in VS. rewrite T in VS. destruct VS.
  - destruct H as [H|H]; [discriminate|]. apply Forall_impl with (2 := int_range _ _ _ _ T VS V H). tauto.
  - exact (float_range _ _ _ _ T VS V).
Qed.
