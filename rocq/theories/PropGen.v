(** C76: the dataset generators of the auditorium and the mechanism that runs aggregations. *)
From Coq Require Import String DecimalString Permutation.
From Verif Require Import Base Exn XReal TypesGen ModelGen SpecGen ProofGenRun ProofGenData ProofGenBad ProofGenRead.

(** Scalars.  Whatever the service does, every history of calls that returned follows the protocol,
    and if the service keeps to the search space, the datasets of each call are the values of its trial. *)
Theorem C76_scalar : forall (S : Type) (study : list param -> res S) suggest complete c g v h g' s' log,
  new_vizier (log_study study) c = Ok (g, v) -> returned (gen_call (log_suggest suggest) (log_complete complete) scalar_datasets) (g, v) h (g', (s', log)) ->
  exists ps, vizier_space c ps /\ study ps = Ok (fst v) /\ ((forall t, In (Suggested t) log -> in_search_space ps t) ->
    exists ts, List.length ts = List.length h /\ protocol None (combine (map fst h) ts) log
      /\ Forall2 (fun rd t => exists xs, values ps t xs /\ snd (snd rd) = xs /\ fst (snd rd) = scalars (num_vizier_parameters c - 1) xs) h ts).
Proof. exact @scalar_history. Qed.
Print Assumptions C76_scalar.
Example C76_scalar_ex : exists g v h g' log, new_vizier (log_study tiny_study) one_float = Ok (g, v)
  /\ returned (tiny_call (fun _ => false)) (g, v) h (g', (2%nat, log)) /\ map fst h = [None; Some (Fin 1)]
  /\ log = [Suggested (trial_no 0); Completed (trial_no 0) (Fin 1); Suggested (trial_no 1)]
  /\ vizier_space one_float (map (fun i => FloatParam ("x" ++ decimal i)%string (-1) 1) (seq 0 2))
  /\ forall t, In (Suggested t) log -> in_search_space (map (fun i => FloatParam ("x" ++ decimal i)%string (-1) 1) (seq 0 2)) t.
Proof.
  exists tiny_gen, (0%nat, []), [(None, ([0], [0; 1])); (Some (Fin 1), ([0], [0; 1]))], (fst (after true 1 2 [])), [Suggested (trial_no 0); Completed (trial_no 0) (Fin 1); Suggested (trial_no 1)].
  split; [exact tiny_new|]. split; [|split; [reflexivity|split; [reflexivity|split; [reflexivity|]]]].
  - eapply returned_cons; [apply tiny_first; reflexivity|]. eapply returned_cons; [apply tiny_report; [reflexivity | intros [= K]; lra]|]. apply returned_nil.
  - intros t [[= <-]|[E|[[= <-]|[]]]]; try discriminate; apply tiny_in_space.
Qed.

(** Matrices for the aggregation mechanism.  Missing: that they differ in one user of the mechanism,
    which is false (C76_users). *)
Theorem C76_pipeline_partial : forall (S : Type) (study : list param -> res S) suggest complete c ids parts g v h g' s' log,
  new_vizier (log_study study) (pipeline_config ids parts c) = Ok (g, v) -> returned (gen_call (log_suggest suggest) (log_complete complete) (pipeline_datasets ids parts)) (g, v) h (g', (s', log)) ->
  exists ps, vizier_space (mkVizierConfig (ids * parts) (vc_type c) (vc_min c) (vc_max c)) ps /\ study ps = Ok (fst v) /\ ((forall t, In (Suggested t) log -> in_search_space ps t) ->
    exists ts, List.length ts = List.length h /\ protocol None (combine (map fst h) ts) log
      /\ Forall2 (fun rd t => exists xs, values ps t xs /\ snd (snd rd) = entries ids parts xs /\ fst (snd rd) = entries (ids - 1) parts xs) h ts).
Proof. exact @pipeline_history. Qed.
Print Assumptions C76_pipeline_partial.
Example C76_pipeline_ex : pipeline_datasets 2 2 [1; 2; 3; 4] = Ok ([(0%nat, 0%nat, 1); (0%nat, 1%nat, 2)], [(0%nat, 0%nat, 1); (0%nat, 1%nat, 2); (1%nat, 0%nat, 3); (1%nat, 1%nat, 4)]).
Proof. reflexivity. Qed.

(** Labelled examples. *)
Theorem C76_classification : forall (S : Type) (study : list param -> res S) suggest complete c g v h g' s' log,
  new_class (log_study study) c = Ok (g, v) -> returned (gen_call (log_suggest suggest) (log_complete complete) (class_datasets c)) (g, v) h (g', (s', log)) ->
  study (class_space c) = Ok (fst v) /\ ((forall t, In (Suggested t) log -> in_search_space (class_space c) t) ->
    exists ts, List.length ts = List.length h /\ protocol None (combine (map fst h) ts) log
      /\ Forall2 (fun rd t => exists xs, values (class_space c) t xs /\ fst (snd rd) = examples (num_samples_cc c) (sample_dim c) (num_samples_cc c) xs
            /\ snd (snd rd) = examples (num_samples_cc c) (sample_dim c) (num_samples_cc c - 1) xs) h ts).
Proof. exact @classification_history. Qed.
Print Assumptions C76_classification.
Example C76_classification_ex : class_datasets (mkClassConfig 0 1 2 2 3) [1; 2; 3; 4; 0; 3] = Ok (([[1; 2]; [3; 4]], [0; 3]), ([[1; 2]], [0]))
  /\ class_space (mkClassConfig 0 1 1 2 3) = [FloatParam "float0" 0 1; FloatParam "float1" 0 1; IntParam "int2" 0 3; IntParam "int3" 0 3].
Proof. split; reflexivity. Qed.

(** The values are in the configured ranges.  Missing: integers if 0 is not in the range, and labels
    below the number of classes, which are false (C76_int_range_refuted, C76_labels_refuted). *)
Theorem C76_range_partial : forall c ps t xs, vizier_space c ps -> values ps t xs -> (vc_type c = DATA_TYPE_FLOAT \/ vc_min c <= 0 <= vc_max c) ->
  Forall (fun x => vc_min c <= x <= vc_max c) xs.
Proof. exact vizier_range. Qed.
Print Assumptions C76_range_partial.
Theorem C76_class_range_partial : forall c t xs k F L, values (class_space c) t xs -> (k <= num_samples_cc c)%nat -> examples (num_samples_cc c) (sample_dim c) k xs = (F, L) ->
  List.length F = k /\ List.length L = k /\ Forall (fun row => List.length row = sample_dim c /\ Forall (fun x => cc_min c <= x <= cc_max c) row) F
  /\ Forall (fun y => exists z, y = IZR z /\ (0 <= z <= Z.of_nat (num_classes c))%Z) L.
Proof. exact class_ranges. Qed.
Print Assumptions C76_class_range_partial.
Example C76_range_ex : values (map (fun i => FloatParam ("x" ++ decimal i)%string (-1) 1) (seq 0 2)) (trial_no 5) [0; 1].
Proof.
  exists [("x0"%string, 0); ("x1"%string, 1)]. split; [apply perm_swap|]. split; [|reflexivity]. repeat constructor; cbn; lra.
Qed.

(** With a service that answers, any number of calls return, whatever results they are given. *)
Theorem C76_returns : forall (S : Type) (study : list param -> res S) suggest complete c g v, new_vizier study c = Ok (g, v) ->
  (forall ps, vizier_space c ps -> answers suggest complete ps) ->
  forall rs, exists h st, map fst h = rs /\ returned (gen_call suggest complete scalar_datasets) (g, v) h st.
Proof. exact @scalar_returns. Qed.
Print Assumptions C76_returns.
Theorem C76_pipeline_returns : forall (S : Type) (study : list param -> res S) suggest complete c ids parts g v, new_vizier study (pipeline_config ids parts c) = Ok (g, v) ->
  (forall ps, vizier_space (mkVizierConfig (ids * parts) (vc_type c) (vc_min c) (vc_max c)) ps -> answers suggest complete ps) ->
  forall rs, exists h st, map fst h = rs /\ returned (gen_call suggest complete (pipeline_datasets ids parts)) (g, v) h st.
Proof. exact @pipeline_returns. Qed.
Print Assumptions C76_pipeline_returns.
Theorem C76_class_returns : forall (S : Type) (study : list param -> res S) suggest complete c g v, new_class study c = Ok (g, v) -> answers suggest complete (class_space c) ->
  forall rs, exists h st, map fst h = rs /\ returned (gen_call suggest complete (class_datasets c)) (g, v) h st.
Proof. exact @class_returns. Qed.
Print Assumptions C76_class_returns.
Example C76_returns_ex : forall ps, vizier_space one_float ps -> answers (tiny_suggest (fun _ => false)) tiny_complete ps.
Proof.
  intros ps E. cbn in E. subst ps. split; [|intros; eexists; reflexivity]. intros s. exists (S s), [Some (trial_no s)], (trial_no s). split; [reflexivity|]. split; [reflexivity | exact (tiny_in_space s)].
Qed.
(** The constructor. *)
Theorem C76_constructor : forall (S : Type) (study : list param -> res S) c, (vc_type c = DATA_TYPE_UNSPECIFIED -> new_vizier study c = Err NotImplementedError) /\
  (vc_type c <> DATA_TYPE_UNSPECIFIED -> (forall ps, exists s, study ps = Ok s) -> exists g s, new_vizier study c = Ok (g, s)).
Proof. exact @construct. Qed.
Print Assumptions C76_constructor.
(** A first call with a service that raises, has no suggestion, or suggests nothing raises, and the
    generator is as it was. *)
Theorem C76_raises : forall (S D : Type) (study : list param -> res S) suggest complete (datasets : list R -> res (D * D)) c g v,
  new_vizier study c = Ok (g, v) -> forall r,
  (forall v' e, suggest v = (v', Err e) -> gen_call suggest complete datasets r (g, v) = ((g, v'), Err e)) /\
  (forall v', suggest v = (v', Ok []) -> gen_call suggest complete datasets r (g, v) = ((g, v'), Err IndexError)) /\
  (forall v' l, suggest v = (v', Ok (l ++ [None])) -> gen_call suggest complete datasets r (g, v) = ((g, v'), Err ValueError)).
Proof. exact @first_call_raises. Qed.
Print Assumptions C76_raises.
Example C76_raises_ex : exists g v, new_vizier tiny_study one_float = Ok (g, v).
Proof. eexists. eexists. reflexivity. Qed.

(** The aggregation mechanism: every sample is one run of the engine with the tested budget. *)
Theorem C76_aggregation : forall (W : Type) (engine : R -> R -> list (nat * nat * R) -> W -> res (list (nat * list R) * W)) eps delta data n w rows w',
  aggregation_call engine eps delta data n w = Ok (rows, w') ->
  exists results, List.length results = n /\ repeated (engine eps delta data) w results w' /\ rows = map (fun r => concat (map snd r)) results.
Proof. exact @aggregation_runs. Qed.
Print Assumptions C76_aggregation.
Example C76_aggregation_ex : aggregation_call (fun e d _ w => Ok ([(0%nat, [e; INR w]); (1%nat, [d])], S w)) 1 0 [] 2 0%nat = Ok ([[1; INR 0; 0]; [1; INR 1; 0]], 2%nat).
Proof. reflexivity. Qed.

(** False: the datasets for the aggregation mechanism differ in one of its users. *)
Theorem C76_neighbours_refuted : ~ (forall n m xs d1 d2, pipeline_datasets n m xs = Ok (d1, d2) -> exists u, only_differ_in privacy_id_extractor u d1 d2).
Proof. exact neighbours_false. Qed.
Print Assumptions C76_neighbours_refuted.
(** They are neighbours by their first component; by the second, never, with two partitions or more. *)
Theorem C76_users : forall (n m : nat) xs, (1 <= n)%nat -> (2 <= m)%nat -> List.length xs = (n * m)%nat -> exists d1 d2, pipeline_datasets n m xs = Ok (d1, d2)
  /\ only_differ_in (fun x => fst (fst x)) (n - 1) d1 d2 /\ forall u, ~ only_differ_in privacy_id_extractor u d1 d2.
Proof. exact users_columns. Qed.
Print Assumptions C76_users.
(** What the aggregation mechanism reads: its partitions are the rows of the generated matrix, its
    users the columns, its values the parameters in their order; the other dataset lacks the last row. *)
Theorem C76_read : forall n m xs d1 d2, pipeline_datasets n m xs = Ok (d1, d2) ->
  map partition_extractor d2 = map (fun k => (k / m)%nat) (seq 0 (n * m)) /\
  map privacy_id_extractor d2 = map (fun k => (k mod m)%nat) (seq 0 (n * m)) /\
  map value_extractor d2 = xs /\ d1 = firstn ((n - 1) * m) d2.
Proof. exact rows_read. Qed.
Print Assumptions C76_read.
Example C76_read_ex : pipeline_datasets 2 2 [5; 6; 7; 8] =
  Ok ([(0%nat, 0%nat, 5); (0%nat, 1%nat, 6)], [(0%nat, 0%nat, 5); (0%nat, 1%nat, 6); (1%nat, 0%nat, 7); (1%nat, 1%nat, 8)]).
Proof. reflexivity. Qed.
(** False: every result given is reported. *)
Theorem C76_every_result_refuted : ~ (forall (S : Type) (study : list param -> res S) suggest complete c g v h g' s' log, new_vizier (log_study study) c = Ok (g, v) ->
  returned (gen_call (log_suggest suggest) (log_complete complete) scalar_datasets) (g, v) h (g', (s', log)) ->
  forall i x, nth_error (map fst h) (Datatypes.S i) = Some (Some x) -> exists t, In (Completed t x) log).
Proof. exact every_result_false. Qed.
Print Assumptions C76_every_result_refuted.
(** False: a trial is completed with one result only, when a call may raise. *)
Theorem C76_completed_once_refuted : ~ (forall (S : Type) (study : list param -> res S) suggest complete c g v r1 r2 r3 g1 g2 g3 v1 v2 s' log a1 a2 a3, new_vizier (log_study study) c = Ok (g, v) ->
  gen_call (log_suggest suggest) (log_complete complete) scalar_datasets r1 (g, v) = ((g1, v1), a1) ->
  gen_call (log_suggest suggest) (log_complete complete) scalar_datasets r2 (g1, v1) = ((g2, v2), a2) ->
  gen_call (log_suggest suggest) (log_complete complete) scalar_datasets r3 (g2, v2) = ((g3, (s', log)), a3) ->
  forall t x y, In (Completed t x) log -> In (Completed t y) log -> x = y).
Proof. exact completed_once_false. Qed.
Print Assumptions C76_completed_once_refuted.
(** False: integers are in the configured range. *)
Theorem C76_int_range_refuted : ~ (forall c ps t xs, vc_type c = DATA_TYPE_INT32 -> vizier_space c ps -> values ps t xs -> Forall (fun x => vc_min c <= x <= vc_max c) xs).
Proof. exact int_range_false. Qed.
Print Assumptions C76_int_range_refuted.
(** False: there are as many labels as classes. *)
Theorem C76_labels_refuted : ~ (forall c t xs F L, values (class_space c) t xs -> examples (num_samples_cc c) (sample_dim c) (num_samples_cc c) xs = (F, L) ->
  Forall (fun y => exists z, y = IZR z /\ (0 <= z < Z.of_nat (num_classes c))%Z) L).
Proof. exact labels_false. Qed.
Print Assumptions C76_labels_refuted.
