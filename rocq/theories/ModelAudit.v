(** Model of dp_auditorium/privacy_test_runner.py ("runner") and
    dp_auditorium/testers/histogram_tester.py ("hist").  Floats are reals, and [None] is NaN where a
    NaN can arise. *)
From Verif Require Import Base Exn TypesAudit.

(** * The test runner *)
Section Runner.
  (** Datasets, samples, estimates, and the state of the world: the generator, the mechanism and
      the tester may all be stateful or random. *)
  Context {D Sm V W : Type}.
  Context (generator : option V -> W -> res (D * D * W))
          (mechanism : D -> nat -> W -> res (Sm * W))
          (estimate : Sm -> Sm -> R -> W -> res (V * W))
          (reject : V -> bool)
          (** [gtb a b] is Python's a > b. *)
          (gtb : V -> V -> bool)
          (np_tanh chebyshev : Sm -> res Sm).

  (** runner 27-52, [_get_postprocess_function]; the ValueError for other values cannot arise. *)
  Definition postprocess (p : post_processing) (s : Sm) : res Sm :=
    match p with NONE => Ok s | TANH => np_tanh s | CHEBYSHEV_POLYNOMIALS_D5 => chebyshev s end.

  (** runner 117-152: the loop; [n] trials remain and [trial] is the index of the next. *)
  Fixpoint runner_loop (c : runner_config) (n : nat) (trial : Z) (last : option V) (acc : list V) (w : W) : res (results V * W) :=
    match n with
    | O => Ok (mkResults acc TRIAL_LIMIT_REACHED None (max_num_trials c), w)
    | S n =>
        let? (d1, d2, w) := generator last w in
        let? (samples1, w) := mechanism d1 (num_samples c) w in
        let? (samples2, w) := mechanism d2 (num_samples c) w in
        let? post1 := postprocess (runner_post c) samples1 in
        let? post2 := postprocess (runner_post c) samples2 in
        let? (e12, w) := estimate post1 post2 (failure_probability c) w in
        let? (e21, w) := estimate post2 post1 (failure_probability c) w in
        let e := if gtb e21 e12 then e21 else e12 in
        let acc := acc ++ [e] in
        if reject e
        then Ok (mkResults acc FOUND_PRIVACY_VIOLATION (Some (failure_probability c)) (trial + 1), w)
        else runner_loop c n (trial + 1) (Some e) acc w
    end.
  (** runner 86-163, [test_privacy]. *)
  Definition test_privacy (c : runner_config) (w : W) : res (results V * W) :=
    runner_loop c (Z.to_nat (max_num_trials c)) 0 None [] w.
End Runner.

(** * The histogram tester *)
(** testers/property_tester_utils.py 74-79, [_validate_epsilon_parameter]. *)
Definition validate_epsilon (e : option R) : res R :=
  match e with
  | None => Err ValueError
  | Some e => if Reqb e 0 then Err ValueError else if Rleb e 0 then Err ValueError else Ok e
  end.
(** property_tester_utils.py 82-99, [validate_approximate_dp_property], in the constructor,
    hist 115-144. *)
Definition new_tester (c : hist_config) : res hist_tester :=
  let? e := validate_epsilon (h_epsilon c) in
  match h_delta c with
  | None => Err ValueError
  | Some d => if Rltb d 0 then Err ValueError else Ok (mkTester c e d)
  end.

(** Samples falling in each of the bins 0, ..., size-1. *)
Definition bin_counts {A} (bin : A -> Z) (size : nat) (samples : list A) : list R :=
  map (fun i => INR (List.length (filter (fun a => (bin a =? Z.of_nat i)%Z) samples))) (seq 0 size).
Definition frequencies {A} (bin : A -> Z) (size : nat) (samples : list A) : list R :=
  map (fun x => x / INR (List.length samples)) (bin_counts bin size samples).

(** hist 34-63, [_estimate_discrete_distribution]. *)
Definition estimate_discrete (c : hist_config) (samples : list Z) : res (list R) :=
  match samples with
  | [] => Err ValueError
  | _ :: _ =>
      if existsb (fun a => (Z.of_nat (h_size c) <=? a)%Z) samples || existsb (fun a => (a <? 0)%Z) samples
      then Err ValueError
      else Ok (frequencies (fun a => a) (h_size c) samples)
  end.
(** np.clip. *)
Definition np_clip (lo hi x : R) : R := Rmin (Rmax x lo) hi.
(** np.histogram with equal bins: the index of the bin of a value in the range; the last bin is
    closed on the right.  numpy corrects the index by comparing with the edges, which in exact
    arithmetic changes nothing. *)
Definition histogram_bin (size : nat) (lo hi x : R) : Z :=
  let i := Int_part ((x - lo) * INR size / (hi - lo)) in
  if (i =? Z.of_nat size)%Z then (i - 1)%Z else i.
(** hist 66-97, [_estimate_continuous_distribution]; np.histogram raises for no bins and for a
    reversed range, and widens an empty range by 1/2 on both sides. *)
Definition estimate_continuous (c : hist_config) (samples : list R) : res (list R) :=
  let clipped := map (np_clip (h_min c) (h_max c)) samples in
  match samples with
  | [] => Err ValueError
  | _ :: _ =>
      if (h_size c =? 0)%nat then Err ValueError
      else if Rltb (h_max c) (h_min c) then Err ValueError
      else
        let '(lo, hi) := if Reqb (h_min c) (h_max c) then (h_min c - /2, h_max c + /2) else (h_min c, h_max c) in
        Ok (frequencies (histogram_bin (h_size c) lo hi) (h_size c) clipped)
  end.

(** np.sqrt and np.log. *)
Definition np_sqrt (x : R) : option R := if Rltb x 0 then None else Some (sqrt x).
(** The logarithm of a negative number is NaN; that of 0 does not arise. *)
Definition np_log (x : R) : option R := if Rleb x 0 then None else Some (ln x).

(** hist 151-180, [_get_error_tolerance]. *)
Definition error_tolerance (t : hist_tester) (n : nat) (p1 p2 : list R) (failure : R) : res (option R) :=
  let e := exp (t_epsilon t) in
  let term_1 :=
    if h_original (t_config t)
    then 2 * (1 + e) * sqrt (INR (h_size (t_config t)) / INR n)
    else 2 / sqrt (INR n) * rsum sqrt p1 + 2 * e / sqrt (INR n) * rsum sqrt p2 in
  if Reqb failure 0 then Err ZeroDivisionError
  else Ok (match np_log (4 / failure) with
           | None => None
           | Some l => match np_sqrt (l / (2 * INR n)) with
                       | None => None
                       | Some s => Some (term_1 + 6 * (1 + e) * s)
                       end
           end).

(** hist 182-198: the estimate of delta before the correction for errors. *)
Definition point_estimate (t : hist_tester) (p1 p2 : list R) : R :=
  let per_outcome := map (fun pq => fst pq - exp (t_epsilon t) * snd pq) (combine p1 p2) in
  rsum (fun x => x) (filter (fun x => Rltb 0 x) per_outcome).

(** hist 182-198, [estimate_lower_bound]; [distribution] is [estimate_discrete] or
    [estimate_continuous] (hist 128-139). *)
Definition estimate_lower_bound {A} (distribution : hist_config -> list A -> res (list R)) (t : hist_tester)
    (samples1 samples2 : list A) (failure : R) : res (option R) :=
  let n := Nat.min (List.length samples1) (List.length samples2) in
  let? p1 := distribution (t_config t) samples1 in
  let? p2 := distribution (t_config t) samples2 in
  let? tol := error_tolerance t n p1 p2 failure in
  Ok (match tol with None => None | Some tol => Some (point_estimate t p1 p2 - tol) end).
(** hist 200-202, [reject_property]. *)
Definition reject_property (t : hist_tester) (lower_bound : option R) : bool :=
  match lower_bound with None => false | Some x => Rleb (t_delta t) x end.
(** Python's > on floats. *)
Definition float_gtb (a b : option R) : bool :=
  match a, b with Some a, Some b => Rltb b a | _, _ => false end.
