(** The distribution of a mechanism that draws continuous noise and returns one of finitely many
    reports.  Nothing here refers to the code. *)
From Verif Require Import Base TypesSvt SpecDP SpecMech SpecSvt.
Local Open Scope R_scope.

(** [p] is the integral of [g] over the whole line. *)
Definition integral_is (g : R -> R) (p : R) : Prop :=
  exists G, (forall x, derivable_pt_lim G x (g x))
    /\ (forall e, 0 < e -> exists m, forall x, x <= m -> Rabs (G x) <= e)
    /\ (forall e, 0 < e -> exists m, forall x, m <= x -> Rabs (G x - p) <= e).

(** The density of the Laplace distribution with scale [b], see [laplace_law]. *)
Definition laplace_density (b x : R) : R := exp (- Rabs x / b) / (2 * b).

(** What a report says about the value [v] of a query, the noise added to it and the noisy
    threshold, and the probability of that for noise with the continuous distribution [F]. *)
Definition agrees (t v noise : R) (o : svt_value) : Prop :=
  match o with
  | AboveThreshold => t <= v + noise
  | BelowThreshold => v + noise < t
  | NoResponse => True
  | QueryValue _ => False
  end.
Definition agreement_chance (F : R -> R) (t v : R) (o : svt_value) : R :=
  match o with
  | AboveThreshold => 1 - F (t - v)
  | BelowThreshold => F (t - v)
  | NoResponse => 1
  | QueryValue _ => 0
  end.
(** The rows of reports that a run with at most [answers] answers can give: a query gets no
    response exactly when that many before it were above. *)
Fixpoint possible (answers : nat) (row : list svt_value) : bool :=
  match row, answers with
  | [], _ => true
  | NoResponse :: row, O => possible O row
  | AboveThreshold :: row, S n => possible n row
  | BelowThreshold :: row, S n => possible (S n) row
  | _, _ => false
  end.
(** The probability of the row given the noisy threshold, with independent noise of the queries. *)
Fixpoint agreement_chances (F : R -> R) (t : R) (vs : list R) (row : list svt_value) : R :=
  match vs, row with
  | [], [] => 1
  | v :: vs, o :: row => agreement_chance F t v o * agreement_chances F t vs row
  | _, _ => 0
  end.
Definition row_chance (F : R -> R) (answers : nat) (t : R) (vs : list R) (row : list svt_value) : R :=
  if possible answers row then agreement_chances F t vs row else 0.
(** All rows of [n] reports. *)
Fixpoint rows (n : nat) : list (list svt_value) :=
  match n with
  | O => [[]]
  | S n => flat_map (fun o => map (cons o) (rows n)) [NoResponse; AboveThreshold; BelowThreshold]
  end.

(** The probability [p row] of each row: the noise of the threshold has scale [bt], that of the
    queries scale [bq]. *)
Definition row_law (bt bq : R) (answers : nat) (t0 : R) (vs : list R) (p : list svt_value -> R) : Prop :=
  forall row, In row (rows (List.length vs)) ->
    integral_is (fun t => laplace_density bt (t - t0) * row_chance (laplace_law bq) answers t vs row) (p row).

(** Datasets that the declared sensitivity max_value - min_value is meant for: for the sum, one
    record is replaced; the two records that the other query reveals may differ in any way. *)
Definition one_replaced (d d' : list R) : Prop :=
  exists l x y r, d = l ++ x :: r /\ d' = l ++ y :: r.
Definition svt_neighbours (c : svt_config) (d d' : list R) : Prop :=
  match svt_query c with
  | QUERY_TYPE_SUM => one_replaced d d'
  | _ => True
  end.
(** The guarantees: those of the docstrings of SVT1, SVT2 and SVT4, and that of SVT6 when at most
    [answers] queries are answered. *)
Definition svt_guarantee (k : svt_class) (answers epsilon : R) : R :=
  match k with
  | SVT4 => (1 + 6 * answers) * epsilon / 4
  | SVT6 => (1 / 2 + answers) * epsilon
  | _ => epsilon
  end.
Definition reports_only (k : svt_class) : bool :=
  match k with SVT1 | SVT2 | SVT4 | SVT6 => true | _ => false end.

(** The event that all queries with values [vs] are below the threshold, and then a query with value
    [v] is above it and its noisy value is at most [u]: which noise gives it, and its probability. *)
Definition last_at_most (t : R) (vs : list R) (v : R) (noise : nat -> R) (u : R) : Prop :=
  (forall j, (j < List.length vs)%nat -> nth j vs 0 + noise j < t) /\ t <= v + noise (List.length vs) <= u.
Fixpoint below_chances (F : R -> R) (t : R) (vs : list R) : R :=
  match vs with [] => 1 | v :: vs => F (t - v) * below_chances F t vs end.
Definition last_at_most_law (bt bq t0 : R) (vs : list R) (v u p : R) : Prop :=
  integral_is (fun t => laplace_density bt (t - t0) *
    (below_chances (laplace_law bq) t vs * Rmax 0 (laplace_law bq (u - v) - laplace_law bq (t - v)))) p.
