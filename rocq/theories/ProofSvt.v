(** The vectorised loop of the sparse vector technique runs the sequential algorithm on every
    sample. *)
From Verif Require Import Base Exn TypesSvt ModelSvt SpecSvt.

Lemma set_nth_at {A} (l : list A) y x r : set_nth (l ++ y :: r) (List.length l) x = l ++ x :: r.
Proof. induction l as [|a l IH]; cbn [app set_nth List.length]; [reflexivity|]. f_equal; exact IH. Qed.

Section Loop.
  Context (k : svt_class) (cutoff : Z).
  (** The state of one sample: the reports so far, the threshold, the queries to come, and the
      number of queries above the threshold so far. *)
  Record row := mkRow { r_done : list svt_value; r_pass : list bool; r_threshold : R; r_todo : list R; r_count : Z }.
  Definition row_out (r : row) := r_done r ++ map (fun q => query_output k q (r_threshold r)) (r_todo r).
  Definition row_passes (r : row) := r_pass r ++ map (fun q => passes q (r_threshold r)) (r_todo r).
  Definition row_final (r : row) :=
    r_done r ++ sparse_vector (shown k) (Z.to_nat (cutoff - r_count r)) (r_threshold r) (r_todo r).
  Definition row_next (r : row) : row :=
    match r_todo r with
    | [] => r
    | q :: todo =>
        mkRow (r_done r ++ [if (cutoff <=? r_count r)%Z then NoResponse else query_output k q (r_threshold r)])
          (r_pass r ++ [passes q (r_threshold r)]) (r_threshold r) todo
          (r_count r + (if passes q (r_threshold r) then 1 else 0))
    end.

  Lemma sparse_none show t qs : sparse_vector show 0 t qs = repeat NoResponse (List.length qs).
  Proof. induction qs as [|q qs IH]; cbn [sparse_vector repeat List.length]; [reflexivity|]. f_equal; exact IH. Qed.

  Lemma row_next_final r : r_todo r <> [] -> row_final (row_next r) = row_final r.
  Proof.
    destruct r as [d p t [|q todo] x]; intros H; [contradiction H; reflexivity|].
    unfold row_final, row_next; cbn [r_done r_todo r_count r_threshold r_pass].
    rewrite <- app_assoc; f_equal. unfold query_output, passes.
    destruct (Z.leb_spec cutoff x) as [Hx|Hx].
    - replace (Z.to_nat (cutoff - x)) with 0%nat by lia.
      replace (Z.to_nat (cutoff - (x + (if Rleb t q then 1 else 0)))) with 0%nat by (destruct (Rleb t q); lia).
      reflexivity.
    - replace (Z.to_nat (cutoff - x)) with (S (Z.to_nat (cutoff - x - 1))) by lia.
      cbn [sparse_vector]. destruct (Rleb t q); cbn [app].
      + unfold shown. replace (Z.to_nat (cutoff - (x + 1))) with (Z.to_nat (cutoff - x - 1)) by lia. reflexivity.
      + replace (Z.to_nat (cutoff - (x + 0))) with (S (Z.to_nat (cutoff - x - 1))) by lia. reflexivity.
  Qed.

  Lemma combine_maps {A B C} (f : A -> B) (g : A -> C) l : combine (map f l) (map g l) = map (fun a => (f a, g a)) l.
  Proof. induction l as [|a l IH]; cbn [map combine]; [reflexivity|]. f_equal; exact IH. Qed.

  Lemma filter_all {A} (f : A -> bool) l : List.length (filter f l) = List.length l -> forall a, In a l -> f a = true.
  Proof.
    induction l as [|a l IH]; cbn [filter List.length]; intros H x Hx; [destruct Hx|].
    destruct (f a) eqn:E; cbn [List.length] in H.
    - destruct Hx as [ -> |Hx]; [exact E|]. apply IH; [lia|exact Hx].
    - exfalso. assert (List.length (filter f l) <= List.length l)%nat.
      { clear. induction l as [|b l IH]; cbn [filter List.length]; [lia|]. destruct (f b); cbn [List.length]; lia. }
      lia.
  Qed.

  Lemma loop_rows n : forall i rows,
    Forall (fun r => List.length (r_done r) = i /\ List.length (r_pass r) = i /\ List.length (r_todo r) = n) rows ->
    svt_loop cutoff (map row_passes rows) n i (map r_count rows) (map row_out rows) = map row_final rows.
  Proof.
    induction n as [|n IH]; intros i rows Hr; cbn [svt_loop].
    - apply map_ext_in. intros r Hin. rewrite Forall_forall in Hr. destruct (Hr r Hin) as (_ & _ & H).
      destruct (r_todo r) eqn:E; [|discriminate]. unfold row_out, row_final. rewrite E. reflexivity.
    - destruct (Nat.eqb_spec (List.length (filter (fun b => b) (map (fun x => (cutoff <=? x)%Z) (map r_count rows))))
                  (List.length (map r_count rows))) as [Hall|Hsome].
      + assert (Hc : forall r, In r rows -> (cutoff <=? r_count r)%Z = true).
        { intros r Hin. apply (filter_all (fun b => b) (map (fun x => (cutoff <=? x)%Z) (map r_count rows)));
            [rewrite map_length; exact Hall|]. apply in_map with (f := fun x => (cutoff <=? x)%Z).
          apply in_map; exact Hin. }
        rewrite map_map. apply map_ext_in. intros r Hin. rewrite Forall_forall in Hr.
        destruct (Hr r Hin) as (Hd & _ & Ht). specialize (Hc r Hin). apply Z.leb_le in Hc.
        unfold row_out, row_final. rewrite app_length, map_length, Hd, Ht, <- Hd, firstn_app, firstn_all, Nat.sub_diag.
        cbn [firstn]. rewrite app_nil_r. f_equal.
        replace (Z.to_nat (cutoff - r_count r)) with 0%nat by lia. rewrite sparse_none, Ht. f_equal. lia.
      + rewrite !map_map, !combine_maps, !map_map. cbn [fst snd].
        rewrite <- (map_ext_in (fun r => row_final (row_next r)) row_final).
        2:{ intros r Hin. rewrite Forall_forall in Hr. destruct (Hr r Hin) as (_ & _ & H).
            apply row_next_final. destruct (r_todo r); [discriminate|congruence]. }
        rewrite <- (map_map row_next row_final).
        rewrite <- (IH (S i) (map row_next rows)).
        2:{ rewrite Forall_forall in Hr |- *. intros r' Hin. apply in_map_iff in Hin. destruct Hin as (r & <- & Hin).
            destruct (Hr r Hin) as (Hd & Hp & H). unfold row_next. destruct (r_todo r) as [|q todo] eqn:E; [discriminate|].
            cbn [r_done r_pass r_todo List.length] in *. rewrite !app_length, Hd, Hp. cbn [List.length]. repeat split; lia. }
        rewrite !map_map. rewrite Forall_forall in Hr. f_equal; apply map_ext_in; intros r Hin;
          destruct (Hr r Hin) as (Hd & Hp & H); unfold row_passes, row_out, row_next;
          destruct (r_todo r) as [|q todo] eqn:E; try discriminate; cbn [r_done r_pass r_threshold r_todo r_count map].
        * rewrite <- app_assoc; reflexivity.
        * f_equal. rewrite <- Hp, app_nth2, Nat.sub_diag by lia. reflexivity.
        * rewrite <- app_assoc. cbn [app]. destruct (cutoff <=? r_count r)%Z; [|reflexivity].
          rewrite <- Hd. apply set_nth_at.
  Qed.
End Loop.

(** The values of the queries. *)
Lemma query_values_ok c data vs : query_values c data = Ok vs -> (0 < num_queries c)%nat ->
  List.length vs = num_queries c /\ forall j, (j < num_queries c)%nat -> query_value c data j (nth j vs 0).
Proof.
  unfold query_values, query_value, sum_values, reveal_values. intros H Hn. destruct (svt_query c); [discriminate| |].
  - injection H as <-. split; [apply repeat_length|]. intros j Hj.
    rewrite (nth_indep _ 0 (rsum (clip (min_value c) (max_value c)) data)) by (rewrite repeat_length; exact Hj).
    rewrite nth_repeat. reflexivity.
  - destruct (rev (map (clip (min_value c) (max_value c)) data)) as [|a [|b l]] eqn:E; try discriminate.
    injection H as <-. split; [rewrite app_length, repeat_length; cbn [List.length]; lia|].
    intros j Hj.
    rewrite <- map_rev in E. destruct (rev data) as [|x [|y d]] eqn:Er; try discriminate. cbn [map] in E.
    injection E as Ea Eb El. exists (rev d), y, x. split.
    { rewrite <- (rev_involutive data), Er. cbn [rev]. rewrite <- app_assoc. reflexivity. }
    destruct (Nat.eqb_spec (S j) (num_queries c)) as [Ej|Ej].
    + replace j with (List.length (repeat a (num_queries c - 1))) by (rewrite repeat_length; lia).
      rewrite app_nth2, Nat.sub_diag by lia. cbn [nth]. symmetry; exact Eb.
    + rewrite app_nth1 by (rewrite repeat_length; lia).
      rewrite (nth_indep _ 0 a) by (rewrite repeat_length; lia). rewrite nth_repeat. symmetry; exact Ea.
Qed.

Lemma scale_threshold k c s : laplace_scale (threshold_scale k c) = Ok s ->
  s = documented_threshold_scale k (IZR (max_answered_queries c)) (max_value c - min_value c) (svt_epsilon c) /\ 0 <= s.
Proof.
  unfold laplace_scale. destruct (Reqb_spec (snd (threshold_scale k c)) 0) as [H|H]; [discriminate|].
  destruct (Rltb_spec (fst (threshold_scale k c) / snd (threshold_scale k c)) 0) as [H0|H0]; [discriminate|].
  intros E. injection E as <-. split; [|lra].
  destruct k; cbn [threshold_scale documented_threshold_scale fst snd] in *; unfold svt_sensitivity; try reflexivity.
  unfold Rdiv; ring.
Qed.
Lemma scale_query k c q s : query_scale k c = Some q -> laplace_scale q = Ok s ->
  s = documented_query_scale k (IZR (max_answered_queries c)) (max_value c - min_value c) (svt_epsilon c) /\ 0 <= s.
Proof.
  intros Hq. unfold laplace_scale. destruct (Reqb_spec (snd q) 0) as [H|H]; [discriminate|].
  destruct (Rltb_spec (fst q / snd q) 0) as [H0|H0]; [discriminate|].
  intros E. injection E as <-. split; [|lra].
  destruct k; cbn [query_scale documented_query_scale] in *; try discriminate; injection Hq as <-; reflexivity.
Qed.

Lemma combine_map_seq {A B C} (f : A -> B) (g : A -> C) (l : list A) :
  combine (map f l) (map g l) = map (fun i => (f i, g i)) l.
Proof. apply combine_maps. Qed.

Lemma map_const_repeat {A B} (x : B) (l : list A) : map (fun _ => x) l = repeat x (List.length l).
Proof. induction l as [|a l IH]; cbn [map repeat List.length]; [reflexivity|]. f_equal; exact IH. Qed.

Lemma map_combine_seq (vs : list R) (f : nat -> R -> R) :
  map (fun jv => f (fst jv) (snd jv)) (combine (seq 0 (List.length vs)) vs)
  = map (fun j => f j (nth j vs 0)) (seq 0 (List.length vs)).
Proof.
  assert (G : forall m, map (fun jv => f (fst jv) (snd jv)) (combine (seq m (List.length vs)) vs)
            = map (fun j => f j (nth (j - m) vs 0)) (seq m (List.length vs))).
  { induction vs as [|v vs IH]; intros m; cbn [List.length seq combine map]; [reflexivity|].
    rewrite Nat.sub_diag. f_equal. rewrite IH. apply map_ext_in. intros j Hj. apply in_seq in Hj.
    replace (j - m)%nat with (S (j - S m)) by lia. reflexivity. }
  rewrite G. apply map_ext. intros j. rewrite Nat.sub_0_r. reflexivity.
Qed.

(** The whole call. *)
Lemma call_rows tn qn k c data n out : svt_call tn qn k c data n = Ok out -> (0 < num_queries c)%nat ->
  exists vs, List.length vs = num_queries c
    /\ (forall j, (j < num_queries c)%nat -> query_value c data j (nth j vs 0))
    /\ 0 <= documented_threshold_scale k (IZR (max_answered_queries c)) (max_value c - min_value c) (svt_epsilon c)
    /\ 0 <= documented_query_scale k (IZR (max_answered_queries c)) (max_value c - min_value c) (svt_epsilon c)
    /\ out = map (fun i =>
         sparse_vector (shown k) (Z.to_nat (max_answered_queries c))
           (threshold c + documented_threshold_scale k (IZR (max_answered_queries c)) (max_value c - min_value c) (svt_epsilon c) * tn i)
           (map (fun j => nth j vs 0
             + documented_query_scale k (IZR (max_answered_queries c)) (max_value c - min_value c) (svt_epsilon c) * qn i j)
             (seq 0 (num_queries c)))) (seq 0 n).
Proof.
  unfold svt_call. intros H Hn.
  destruct (query_values c data) as [vs|] eqn:Ev; cbn [bind] in H; [|discriminate].
  destruct (query_values_ok c data vs Ev Hn) as (Hl & Hv). exists vs. split; [exact Hl|]. split; [exact Hv|].
  unfold noisy_thresholds in H. destruct (laplace_scale (threshold_scale k c)) as [ts|] eqn:Et; cbn [bind] in H; [|discriminate].
  destruct (scale_threshold k c ts Et) as (Hts & Hts0).
  set (T := fun i => threshold c + ts * tn i) in *.
  assert (Hq : exists qs, 0 <= qs
    /\ qs = documented_query_scale k (IZR (max_answered_queries c)) (max_value c - min_value c) (svt_epsilon c)
    /\ noisy_queries qn k c vs n = Ok (map (fun i => map (fun j => nth j vs 0 + qs * qn i j) (seq 0 (num_queries c))) (seq 0 n))).
  { unfold noisy_queries in *. destruct (query_scale k c) as [q|] eqn:Eq; cbn [bind] in *.
    - destruct (laplace_scale q) as [qs|] eqn:Es; cbn [bind] in *; [|discriminate].
      destruct (scale_query k c q qs Eq Es) as (Hqs & Hqs0). exists qs. split; [exact Hqs0|]. split; [exact Hqs|].
      f_equal. apply map_ext. intros i. rewrite <- Hl.
      apply (map_combine_seq vs (fun j v => v + qs * qn i j)).
    - exists 0. split; [lra|]. split; [destruct k; cbn [query_scale] in Eq; try discriminate; reflexivity|].
      f_equal. rewrite <- (seq_length n 0) at 1. rewrite <- map_const_repeat. apply map_ext. intros i.
      rewrite <- Hl. clear. apply nth_ext with (d := 0) (d' := 0); [rewrite map_length, seq_length; reflexivity|].
      intros j Hj. set (f := fun j0 => nth j0 vs 0 + 0 * qn i j0).
      rewrite (nth_indep (map f (seq 0 (List.length vs))) 0 (f 0%nat)) by (rewrite map_length, seq_length; exact Hj).
      rewrite map_nth, seq_nth by exact Hj. unfold f. cbn [Nat.add]. ring. }
  destruct Hq as (qs & Hqs0 & Hqs & Eq). rewrite Eq in H. cbn [bind] in H. injection H as <-.
  rewrite <- Hts, <- Hqs. split; [exact Hts0|]. split; [exact Hqs0|].
  rewrite combine_maps, !map_map. cbn [fst snd].
  set (rows := map (fun i => mkRow [] [] (T i) (map (fun j => nth j vs 0 + qs * qn i j) (seq 0 (num_queries c))) 0%Z) (seq 0 n)).
  assert (Hc : repeat 0%Z n = map r_count rows).
  { unfold rows. rewrite map_map. cbn [r_count]. rewrite map_const_repeat, seq_length. reflexivity. }
  rewrite Hc.
  transitivity (map (row_final k (max_answered_queries c)) rows).
  { rewrite <- (loop_rows k (max_answered_queries c) (num_queries c) 0 rows).
    - f_equal; unfold rows; rewrite !map_map; reflexivity.
    - unfold rows. apply Forall_forall. intros r Hr. apply in_map_iff in Hr. destruct Hr as (i & <- & _).
      cbn [r_done r_pass r_todo List.length]. rewrite map_length, seq_length. repeat split; reflexivity. }
  unfold rows. rewrite map_map. unfold row_final. cbn [r_done r_count r_threshold r_todo app].
  apply map_ext. intros i. rewrite Z.sub_0_r. reflexivity.
Qed.

(** What the reports of a sequential run look like. *)
Lemma sparse_count k a t qs : (count_above (sparse_vector (shown k) a t qs) <= a)%nat.
Proof.
  unfold count_above. revert a; induction qs as [|q qs IH]; intros [|a]; cbn [sparse_vector filter List.length is_above]; try lia.
  - specialize (IH 0%nat). lia.
  - destruct (Rleb t q).
    + assert (is_above (shown k q) = true) by (destruct k; reflexivity).
      cbn [filter]. rewrite H. cbn [List.length]. specialize (IH a). lia.
    + cbn [filter is_above]. apply (IH (S a)).
Qed.

Lemma sparse_length show a t qs : List.length (sparse_vector show a t qs) = List.length qs.
Proof.
  revert a; induction qs as [|q qs IH]; intros [|a]; cbn [sparse_vector List.length]; try reflexivity.
  - f_equal; apply IH.
  - destruct (Rleb t q); cbn [List.length]; f_equal; apply IH.
Qed.

Lemma sparse_nth k a t qs j : (j < List.length qs)%nat ->
  nth j (sparse_vector (shown k) a t qs) NoResponse =
    if (count_above (firstn j (sparse_vector (shown k) a t qs)) <? a)%nat
    then if Rleb t (nth j qs 0) then shown k (nth j qs 0) else BelowThreshold
    else NoResponse.
Proof.
  assert (Ha : forall q, is_above (shown k q) = true) by (intros; destruct k; reflexivity).
  revert a j; induction qs as [|q qs IH]; intros a j Hj; cbn [List.length] in Hj; [lia|].
  destruct a as [|a]; [|destruct j as [|j]]; cbn [sparse_vector].
  - rewrite sparse_none.
    assert (E : NoResponse :: repeat NoResponse (List.length qs) = repeat NoResponse (S (List.length qs))) by reflexivity.
    rewrite E, nth_repeat.
    destruct (Nat.ltb_spec (count_above (firstn j (repeat NoResponse (S (List.length qs))))) 0); [lia|reflexivity].
  - destruct (Rleb t q) eqn:E; cbn [nth firstn]; rewrite E; reflexivity.
  - unfold count_above in *. destruct (Rleb t q) eqn:E; cbn [nth firstn filter is_above]; [rewrite Ha; cbn [List.length]|];
      rewrite (IH _ j) by lia; reflexivity.
Qed.

(** C52. *)
Lemma cutoff_respected tn qn k c data n out : svt_call tn qn k c data n = Ok out -> (0 < num_queries c)%nat ->
  List.length out = n /\
  forall i, (i < n)%nat ->
    List.length (nth i out []) = num_queries c
    /\ (count_above (nth i out []) <= Z.to_nat (max_answered_queries c))%nat
    /\ forall j, (j < num_queries c)%nat ->
         (nth j (nth i out []) NoResponse = NoResponse
          <-> (Z.to_nat (max_answered_queries c) <= count_above (firstn j (nth i out [])))%nat).
Proof.
  intros H Hn. destruct (call_rows tn qn k c data n out H Hn) as (vs & Hl & _ & _ & _ & ->).
  split; [rewrite map_length, seq_length; reflexivity|]. intros i Hi.
  set (row := fun i0 : nat => _).
  assert (E : nth i (map row (seq 0 n)) [] = row i).
  { rewrite (nth_indep _ [] (row 0%nat)) by (rewrite map_length, seq_length; exact Hi).
    rewrite map_nth, seq_nth by exact Hi. reflexivity. }
  rewrite E. unfold row. clear E row.
  set (t := threshold c + _). set (qs := map _ _).
  assert (Hq : List.length qs = num_queries c) by (unfold qs; rewrite map_length, seq_length; reflexivity).
  split; [rewrite sparse_length; exact Hq|]. split; [apply sparse_count|].
  intros j Hj. rewrite sparse_nth by lia.
  destruct (Nat.ltb_spec (count_above (firstn j (sparse_vector (shown k) (Z.to_nat (max_answered_queries c)) t qs)))
              (Z.to_nat (max_answered_queries c))) as [Hc|Hc].
  - split; [|lia]. destruct (Rleb t (nth j qs 0)); [destruct k|]; discriminate.
  - split; [intros _; exact Hc|reflexivity].
Qed.

(** Two samples of three queries, with cutoff one. *)
Definition svt_example_config := mkSvt 1 1 0 QUERY_TYPE_SUM 3 (3/2) 1.
Definition svt_example_noise (i j : nat) : R :=
  match i, j with O, O => -1 | O, S O => -1 | S O, O => -1 | _, _ => 0 end.
Lemma svt_example :
  svt_call (fun _ => 0) svt_example_noise SVT1 svt_example_config [1; 5] 2
  = Ok [[BelowThreshold; BelowThreshold; AboveThreshold]; [BelowThreshold; AboveThreshold; NoResponse]].
Proof.
  assert (C1 : clip 0 1 1 = 1) by (unfold clip; rewrite Rmax_left, Rmin_left; lra).
  assert (C5 : clip 0 1 5 = 1) by (unfold clip; rewrite Rmax_left, Rmin_right; lra).
  unfold svt_call, query_values, noisy_thresholds, noisy_queries, laplace_scale, sum_values, svt_sensitivity.
  cbn [svt_query svt_example_config query_scale threshold_scale fst snd max_answered_queries min_value max_value svt_epsilon
       num_queries rsum bind threshold repeat combine seq map Nat.add List.length].
  rewrite C1, C5. unfold svt_sensitivity. cbn [max_value min_value svt_example_config].
  rewrite !Reqb_false by lra. rewrite !Rltb_false by lra. cbn [bind].
  cbn [map seq combine fst snd svt_example_noise].
  assert (Lo : forall s t, s = 4 -> passes (1 + (1 + 0) + s * -1) (3/2 + t * 0) = false)
    by (intros s t ->; apply Rleb_false; lra).
  assert (Hi : forall s t, passes (1 + (1 + 0) + s * 0) (3/2 + t * 0) = true) by (intros s t; apply Rleb_true; lra).
  unfold query_output. rewrite ?Lo, ?Hi by lra. reflexivity.
Qed.
