(** Model of dp_auditorium/mechanisms/sparse_vector_technique.py ("svt").  Arrays are lists of
    rows, one row per sample; floats are reals; num_queries and num_samples are natural
    numbers. *)
From Verif Require Import Base Exn TypesSvt.

(** np.clip of one value. *)
Definition clip (lo hi x : R) : R := Rmin (Rmax x lo) hi.

(** svt 45-65, [_get_sum_query]: the values of the queries. *)
Definition sum_values (c : svt_config) (data : list R) : res (list R) :=
  Ok (repeat (rsum (clip (min_value c) (max_value c)) data) (num_queries c)).
(** svt 68-107, [_get_reveal_records_query]. *)
Definition reveal_values (c : svt_config) (data : list R) : res (list R) :=
  match rev (map (clip (min_value c) (max_value c)) data) with
  | last :: second :: _ =>
      Ok (repeat last (num_queries c - 1) ++ [second])
  | _ => Err ValueError
  end.
(** svt 125-153: the constructor's choice of the queries. *)
Definition query_values (c : svt_config) (data : list R) : res (list R) :=
  match svt_query c with
  | QUERY_TYPE_SUM => sum_values c data
  | QUERY_TYPE_REVEAL_RECORDS => reveal_values c data
  | QUERY_TYPE_UNSPECIFIED => Err ValueError
  end.
(** svt 64, 106: the sensitivity of both kinds of queries. *)
Definition svt_sensitivity (c : svt_config) : R := max_value c - min_value c.

(** svt 253-258, 300-305, 356-361, 405, 446-449 (SVT5: no noise) and 490: the scale of the
    noise of the queries, as a numerator and a denominator. *)
Definition query_scale (k : svt_class) (c : svt_config) : option (R * R) :=
  match k with
  | SVT1 | SVT2 => Some (4 * IZR (max_answered_queries c) * svt_sensitivity c, svt_epsilon c)
  | SVT3 => Some (2 * IZR (max_answered_queries c) * svt_sensitivity c, svt_epsilon c)
  | SVT4 => Some (4 * svt_sensitivity c, 3 * svt_epsilon c)
  | SVT5 => None
  | SVT6 => Some (2 * svt_sensitivity c, svt_epsilon c)
  end.
(** svt 265, 312-317, 368, 412, 453 and 497: the scale of the noise of the
    threshold. *)
Definition threshold_scale (k : svt_class) (c : svt_config) : R * R :=
  match k with
  | SVT1 | SVT3 | SVT5 | SVT6 => (2 * svt_sensitivity c, svt_epsilon c)
  | SVT2 => (2 * svt_sensitivity c * IZR (max_answered_queries c), svt_epsilon c)
  | SVT4 => (4 * svt_sensitivity c, svt_epsilon c)
  end.
(** A division of floats; numpy's Generator.laplace raises for a negative scale. *)
Definition laplace_scale (s : R * R) : res R :=
  if Reqb (snd s) 0 then Err ZeroDivisionError
  else if Rltb (fst s / snd s) 0 then Err ValueError else Ok (fst s / snd s).

Section Call.
  (** The random numbers, for scale 1: of the threshold of sample i, and of query j of sample i. *)
  Context (threshold_noise : nat -> R) (query_noise : nat -> nat -> R).

  (** get_noisy_thresholds of all classes (see [threshold_scale]); one value per sample. *)
  Definition noisy_thresholds (k : svt_class) (c : svt_config) (num_samples : nat) : res (list R) :=
    let? s := laplace_scale (threshold_scale k c) in
    Ok (map (fun i => threshold c + s * threshold_noise i) (seq 0 num_samples)).
  (** get_noisy_queries of all classes (see [query_scale]).  The noise has num_queries columns: for
      num_queries = 0 broadcasting the one value of [reveal_values] leaves no column, while np.tile
      in SVT5 keeps it. *)
  Definition noisy_queries (k : svt_class) (c : svt_config) (values : list R) (num_samples : nat) : res (list (list R)) :=
    match query_scale k c with
    | None => Ok (repeat values num_samples)
    | Some q =>
        let? s := laplace_scale q in
        Ok (map (fun i => map (fun jv => snd jv + s * query_noise i (fst jv)) (combine (seq 0 (num_queries c)) values))
              (seq 0 num_samples))
    end.
  (** get_query_output of all classes (271-282, 325-336, 374-385, 420-431, 461-472, 505-516): queries_pass_threshold and the outputs. *)
  Definition passes (q t : R) : bool := Rleb t q.
  Definition query_output (k : svt_class) (q t : R) : svt_value :=
    if passes q t then match k with SVT3 => QueryValue q | _ => AboveThreshold end else BelowThreshold.

  (** Assignment to entry [i] of a list. *)
  Fixpoint set_nth {A} (l : list A) (i : nat) (x : A) : list A :=
    match l, i with
    | [], _ => []
    | _ :: l, O => x :: l
    | y :: l, S i => y :: set_nth l i x
    end.
  (** svt 221-236: the loop over the queries, [n] of them remaining, [i] the next one. *)
  Fixpoint svt_loop (cutoff : Z) (pass : list (list bool)) (n i : nat) (counter : list Z) (outputs : list (list svt_value))
      : list (list svt_value) :=
    match n with
    | O => outputs
    | S n =>
        let aborted := map (fun x => (cutoff <=? x)%Z) counter in
        if (List.length (filter (fun b => b) aborted) =? List.length counter)%nat
        then map (fun row => firstn i row ++ repeat NoResponse (List.length row - i)) outputs
        else
          let outputs := map (fun ar => if fst ar : bool then set_nth (snd ar) i NoResponse else snd ar) (combine aborted outputs) in
          let counter := map (fun cp => (fst cp + (if nth i (snd cp) false then 1 else 0))%Z) (combine counter pass) in
          svt_loop cutoff pass n (S i) counter outputs
    end.

  (** svt 187-236, [__call__]; the data are one-dimensional. *)
  Definition svt_call (k : svt_class) (c : svt_config) (data : list R) (num_samples : nat) : res (list (list svt_value)) :=
    let? values := query_values c data in
    let? thresholds := noisy_thresholds k c num_samples in
    let? queries := noisy_queries k c values num_samples in
    let rows := combine queries thresholds in
    let outputs := map (fun qt => map (fun q => query_output k q (snd qt)) (fst qt)) rows in
    let pass := map (fun qt => map (fun q => passes q (snd qt)) (fst qt)) rows in
    Ok (svt_loop (max_answered_queries c) pass (num_queries c) 0 (repeat 0%Z num_samples) outputs).
End Call.
