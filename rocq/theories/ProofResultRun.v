(** The result of private_lsh_clustering, and examples. *)
From Coq Require Import Lra.
From Verif Require Import Base XReal Exn TypesCluster ModelPld ModelCluster ModelCalculator ModelResult SpecResult ProofResult ProofMetrics ProofMetricsRun.
Local Arguments Rltb : simpl never.
Local Arguments Rleb : simpl never.
Local Arguments Reqb : simpl never.

(** Rows of equal length, as in an array. *)
Lemma clustering_result Phi ppf mixture_pld fast_len fuel brentq dlaplace normal projections kmeans k d radius eps delta tree m r :
  (forall k core w c, kmeans k core w = Ok c -> forall u v, In u c -> In v c -> List.length u = List.length v) ->
  private_lsh_clustering Phi ppf mixture_pld fast_len fuel brentq dlaplace normal projections kmeans k d radius eps delta tree m = Ok r ->
  let depth := match tree with None => 20%Z | Some tp => max_depth tp end in
  exists pc s, new_calculator Phi ppf mixture_pld fast_len fuel brentq eps delta radius depth m = Ok pc /\
    validate_accounting Phi ppf mixture_pld fast_len fuel pc eps delta depth = Ok tt /\
    cluster_with dlaplace normal projections kmeans pc k (cols (datapoints d)) radius
      (combine (seq 0 (num_rows (datapoints d))) (rows (datapoints d))) tree depth = Ok (rows (centers r), s) /\
    of_data r = d /\ Forall2 (closest (centers r)) (rows (datapoints d)) (labels r) /\
    loss r = cost (centers r) (rows (datapoints d)) (labels r) /\
    forall other, List.length other = num_rows (datapoints d) -> Forall (is_label (centers r)) other -> loss r <= cost (centers r) (rows (datapoints d)) other.
Proof.
  intros HK. unfold private_lsh_clustering. set (depth := match tree with None => 20%Z | Some tp => max_depth tp end). cbn zeta.
  destruct (new_calculator _ _ _ _ _ _ _ _ _ _ _) as [pc|] eqn:E1; [|discriminate]. cbn [bind].
  destruct (validate_accounting _ _ _ _ _ _ _ _ _) as [[]|] eqn:E2; [|discriminate]. cbn [bind].
  destruct (cluster_with _ _ _ _ _ _ _ _ _ _ _) as [[c s]|] eqn:E3; [|discriminate]. cbn [bind]. intros H.
  assert (W : well_shaped (mkMatrix c (match c with [] => 0%nat | u :: _ => List.length u end))).
  { unfold well_shaped. cbn [rows cols]. apply Forall_forall. intros u Hu. destruct c as [|v c]; [destruct Hu|].
    unfold cluster_with, cluster_from in E3. destruct (choose_tree _ _ _ _ _ _ _ _) as [[[tp cn] s1]|]; [|discriminate]. cbn [bind] in E3. destruct (clip_points _ _) as [cl|]; [|discriminate]. cbn [bind] in E3.
    destruct (get_private_coreset _ _ _ _ _ _ _ _) as [[[core w] s2]|]; [|discriminate]. cbn [bind] in E3. destruct (kmeans _ _ _) as [c'|] eqn:EK; [|discriminate]. cbn [bind] in E3. injection E3 as E3 _. rewrite E3 in EK.
    apply (HK _ _ _ _ EK); [exact Hu | left; reflexivity]. }
  destruct (result_computed _ _ _ W H) as (A & B & C & D & F). exists pc, s. rewrite B. cbn [rows]. split; [reflexivity|]. split; [exact E2|]. split; [exact E3|]. repeat split; assumption.
Qed.

(** ** Examples *)
Definition line (l : list R) : matrix := mkMatrix (map (fun x => [x]) l) 1.
Definition example_data : data := mkData (line [0; 1; 5; 6]) (Some [0; 0; 0; 1]%Z).
Lemma result_example : exists r, new_result example_data (line [0; 5]) None None = Ok r /\ labels r = [0; 0; 1; 1]%Z /\ loss r = 2.
Proof.
  unfold new_result, example_data, line. cbn [datapoints rows cols map map_res]. unfold closest_center. cbn [cols rows List.length Nat.eqb map argmin argmin_from].
  unfold sq_norm, vsub. cbn [combine map rsum fst snd]. rewrite (Rltb_false _ ((0 - 0) * (0 - 0) + 0)) by lra. rewrite (Rltb_false _ ((0 - 1) * (0 - 1) + 0)) by lra. rewrite (Rltb_true _ ((0 - 5) * (0 - 5) + 0)) by lra. rewrite (Rltb_true _ ((0 - 6) * (0 - 6) + 0)) by lra.
  cbn. eexists. split; [reflexivity|]. split; [reflexivity|]. cbn. lra.
Qed.
Lemma metrics_example : exists r m, new_result example_data (line [0; 5]) (Some [0; 0; 1; 1]%Z) (Some 2) = Ok r /\ get_clustering_metrics r = Ok m /\
  dominant_label_correct_count m = 3%Z /\ true_pairs m = 3 /\ true_nonmatch_count m = 2 /\ false_pairs m = 3 /\ false_match_count m = 1.
Proof.
  eexists. destruct (metrics_ok (line [0; 1; 5; 6]) [0; 0; 0; 1]%Z example_data (line [0; 5]) (Some [0; 0; 1; 1]%Z) (Some 2) (mkResult example_data (line [0; 5]) [0; 0; 1; 1]%Z 2)) as (m & Em & C); try reflexivity; [discriminate | repeat constructor; lia|].
  exists m. split; [reflexivity|]. split; [exact Em|]. destruct C as (_ & D1 & (f & D2) & _ & A & B & _ & A' & B' & _). cbn [labels combine] in *.
  split; [|rewrite A, B, A', B'; repeat split; reflexivity].
  specialize (D1 (fun a => if (a =? 0)%Z then 0%Z else 1%Z)). cbn in D1. rewrite <- D2 in D1 |- *. clear - D1. unfold how_many in *. cbn [filter fst snd] in *. destruct (f 0%Z =? 0)%Z, (f 1%Z =? 0)%Z eqn:E; destruct (f 1%Z =? 1)%Z eqn:E'; cbn in *; try lia; apply Z.eqb_eq in E, E'; lia.
Qed.
(** Points with a negative true label are dropped; without other points there are no metrics. *)
Definition noise_data (ts : list Z) : data := mkData (line [0; 1]) (Some ts).
Lemma negative_refuted : exists r m, new_result (noise_data [0; -1]%Z) (line [0]) (Some [0; 0]%Z) (Some 1) = Ok r /\
  get_clustering_metrics r = Ok m /\ num_points m = 1%Z /\ num_rows (datapoints (of_data r)) = 2%nat /\ false_pairs m = 0 /\
  how_many (fun p => negb (same_truth p)) (pairs (combine (labels r) [0; -1]%Z)) = 1%Z.
Proof.
  set (r := mkResult (noise_data [0; -1]%Z) (line [0]) [0; 0]%Z 1).
  destruct (histogram_some (map IZR (labels r)) (map IZR [0; -1]%Z) 0 0) as [h Eh]; try lia.
  assert (EC : cross_label_histogram r = Ok h) by exact Eh. apply histogram_table in Eh. assert (h = [[1%Z]]) as -> by (rewrite Eh; reflexivity).
  exists r. eexists. split; [reflexivity|]. unfold get_clustering_metrics. rewrite EC. cbn [bind]. split; [reflexivity|]. cbn. repeat split; lra.
Qed.
Lemma all_negative_refuted : exists r, new_result (noise_data [-1; -1]%Z) (line [0]) (Some [0; 0]%Z) (Some 1) = Ok r /\ get_clustering_metrics r = Err ValueError.
Proof.
  set (r := mkResult (noise_data [-1; -1]%Z) (line [0]) [0; 0]%Z 1).
  destruct (histogram_some (map IZR (labels r)) (map IZR [-1; -1]%Z) 0 (-1)) as [h Eh]; try lia.
  assert (EC : cross_label_histogram r = Ok h) by exact Eh. apply histogram_table in Eh. assert (h = [[]]) as -> by (rewrite Eh; reflexivity).
  exists r. split; [reflexivity|]. unfold get_clustering_metrics. rewrite EC. reflexivity.
Qed.
Lemma clustering_example Phi ppf mixture_pld fast_len fuel brentq dlaplace normal projections m : (forall j, List.length (normal j) = 1%nat) -> exists r,
  private_lsh_clustering Phi ppf mixture_pld fast_len fuel brentq dlaplace normal projections (fun _ core _ => Ok core) 1 (mkData (line [0; 1]) None) 1 PInf 0 (Some (mkTree 1 1 0)) m = Ok r.
Proof.
  intros HN. unfold private_lsh_clustering. cbn [max_depth]. unfold new_calculator, validate_accounting, nonprivate. cbn [xeqb orb]. unfold new_calc. rewrite Rltb_false by lra. rewrite Rleb_false by lra. cbn.
  specialize (HN 0%nat). destruct (normal 0%nat) as [|g [|]]; try discriminate. cbn. unfold closest_center. cbn. 
  repeat match goal with |- context [Rltb ?a ?b] => destruct (Rltb a b) end; eexists; reflexivity.
Qed.
