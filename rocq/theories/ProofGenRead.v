(** What the aggregation mechanism reads from the generated datasets. *)
From Verif Require Import Base Exn XReal TypesGen ModelGen SpecGen ProofGenData.

Lemma rows_read n m xs d1 d2 : pipeline_datasets n m xs = Ok (d1, d2) ->
  map partition_extractor d2 = map (fun k => (k / m)%nat) (seq 0 (n * m)) /\
  map privacy_id_extractor d2 = map (fun k => (k mod m)%nat) (seq 0 (n * m)) /\
  map value_extractor d2 = xs /\ d1 = firstn ((n - 1) * m) d2.
Proof.
  intros H. assert (L : length xs = (n * m)%nat).
  { unfold pipeline_datasets, reshape in H. destruct (Nat.eqb_spec (length xs) (n * m)); [assumption | discriminate]. }
  apply pipeline_shape in H. injection H as -> ->. unfold entries. rewrite !map_map.
  split; [reflexivity|]. split; [reflexivity|]. split.
  - cbn [value_extractor snd]. rewrite <- L. apply nth_ext with (d := 0) (d' := 0); [rewrite map_length, seq_length; reflexivity|].
    intros i Hi. rewrite map_length, seq_length in Hi.
    rewrite nth_indep with (d' := nth 0 xs 0) by (rewrite map_length, seq_length; assumption).
    unfold value_extractor. cbn [snd]. rewrite (map_nth (fun k => nth k xs 0)), seq_nth by assumption. reflexivity.
  - rewrite firstn_map. f_equal. destruct n as [|n]; [reflexivity|]. replace (Datatypes.S n - 1)%nat with n by lia.
    replace (Datatypes.S n * m)%nat with (n * m + m)%nat by lia. rewrite seq_app, firstn_app, seq_length, Nat.sub_diag, firstn_O, app_nil_r.
    symmetry. apply firstn_all2. rewrite seq_length. lia.
Qed.
