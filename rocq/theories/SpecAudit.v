(** Vocabulary for the statements about the privacy test runner and the histogram tester. *)
From Verif Require Import Base Exn TypesAudit SpecDP.

(** * Runs of trials *)
Section Trials.
  Context {D Sm V W : Type}.
  Context (generator : option V -> W -> res (D * D * W)) (mechanism : D -> nat -> W -> res (Sm * W))
          (post : Sm -> res Sm) (estimate : Sm -> Sm -> R -> W -> res (V * W)) (gtb : V -> V -> bool)
          (failure : R) (n : nat).
  (** One trial, given the estimate of the previous one: its estimate is the larger of the
      estimates in the two directions, on the same samples. *)
  Inductive one_trial (last : option V) (w : W) : V -> W -> Prop :=
  | trial_runs d1 d2 w1 s1 w2 s2 w3 p1 p2 e12 w4 e21 w5 :
      generator last w = Ok (d1, d2, w1) ->
      mechanism d1 n w1 = Ok (s1, w2) -> mechanism d2 n w2 = Ok (s2, w3) ->
      post s1 = Ok p1 -> post s2 = Ok p2 ->
      estimate p1 p2 failure w3 = Ok (e12, w4) -> estimate p2 p1 failure w4 = Ok (e21, w5) ->
      one_trial last w (if gtb e21 e12 then e21 else e12) w5.
  (** Successive trials: the generator of each sees the estimate of the one before. *)
  Inductive trials : option V -> W -> list V -> W -> Prop :=
  | trials_nil last w : trials last w [] w
  | trials_cons last w e w1 es w2 :
      one_trial last w e w1 -> trials (Some e) w1 es w2 -> trials last w (e :: es) w2.
End Trials.

(** * Probability over independent draws *)
(** A finite distribution: outcomes with their probabilities. *)
Definition distribution {O} (om : list (O * R)) : Prop :=
  (forall o, In o om -> 0 <= snd o) /\ rsum snd om = 1.
(** The expectation of a function of [n] independent draws. *)
Fixpoint mean {O} (om : list (O * R)) (n : nat) (f : list O -> R) : R :=
  match n with
  | O => f []
  | S n => rsum (fun o => snd o * mean om n (fun l => f (fst o :: l))) om
  end.
Definition indicator (b : bool) : R := if b then 1 else 0.

(** Two mechanisms, each a function of the random outcome, are indistinguishable. *)
Definition dp_pair {O A} (om : list (O * R)) (m1 m2 : O -> A) (eps delta : R) : Prop :=
  forall S : A -> bool,
    rsum (fun o => if S (m1 (fst o)) then snd o else 0) om
    <= exp eps * rsum (fun o => if S (m2 (fst o)) then snd o else 0) om + delta.

(** A mechanism with its source of randomness: it draws the outcomes from a tape, one for each
    sample.  A generator of datasets keeps a state of its own. *)
Definition tape_mechanism {G D O A} (m : D -> O -> A) (d : D) (n : nat) (w : G * list O) : res (list A * (G * list O)) :=
  Ok (map (m d) (firstn n (snd w)), (fst w, skipn n (snd w))).
Definition tape_generator {G D O V} (gen : option V -> G -> D * D * G) (last : option V) (w : G * list O) : res (D * D * (G * list O)) :=
  let '(d1, d2, g) := gen last (fst w) in Ok (d1, d2, (g, snd w)).
(** Did the run report a violation? *)
Definition reports_violation {V W} (r : res (results V * W)) : bool :=
  match r with Ok (r, _) => match termination_reason r with FOUND_PRIVACY_VIOLATION => true | _ => false end | Err _ => false end.
(** Does a test of two lists of samples reject? *)
Definition rejects {V} (reject : V -> bool) (r : res V) : bool :=
  match r with Ok v => reject v | Err _ => false end.

(** * Empirical distributions *)
Definition empirical {A} (samples : list A) (S : A -> bool) : R :=
  INR (List.length (filter S samples)) / INR (List.length samples).
(** The bins of a histogram of [h_size c] equal bins over the range, which is widened by 1/2 on
    both sides when it is a single point; values outside the range are moved to its ends, and the
    last bin is closed. *)
Definition range_low (c : hist_config) : R := if Req_EM_T (h_min c) (h_max c) then h_min c - / 2 else h_min c.
Definition range_high (c : hist_config) : R := if Req_EM_T (h_min c) (h_max c) then h_max c + / 2 else h_max c.
Definition in_bin (c : hist_config) (i : nat) (x : R) : Prop :=
  let y := Rmin (Rmax x (h_min c)) (h_max c) in
  let width := (range_high c - range_low c) / INR (h_size c) in
  (i < h_size c)%nat /\ range_low c + INR i * width <= y
  /\ (y < range_low c + INR (S i) * width \/ (S i = h_size c /\ y = range_high c)).

(** The advantage of a set in telling two samples apart. *)
Definition advantage {A} (eps : R) (s1 s2 : list A) (S : A -> bool) : R := empirical s1 S - exp eps * empirical s2 S.
(** The correction of the estimate for sampling errors, as documented: the original one, and the
    new one, where [f1] and [f2] are the frequencies of the bins. *)
Definition correction (original : bool) (eps : R) (size n : nat) (failure : R) (f1 f2 : nat -> R) : R :=
  (if original then 2 * (1 + exp eps) * sqrt (INR size / INR n)
   else 2 / sqrt (INR n) * rsum (fun i => sqrt (f1 i)) (seq 0 size) + exp eps * (2 / sqrt (INR n)) * rsum (fun i => sqrt (f2 i)) (seq 0 size))
  + 6 * (1 + exp eps) * sqrt (ln (4 / failure) / (2 * INR n)).
