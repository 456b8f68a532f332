(** Data types shared by the event model and its specification.
    A Python number is an int or a float (floats idealised as reals). *)
From Verif Require Import Base.
From Verif Require Export XReal.
From Verif Require Export Exn.

(** Python numbers: [isinstance(x, float)] is observable, [1 == 1.0] is true.
    [PyInf] is the float infinity (a legal shape of a RepeatAndSelectDpEvent);
    events with NaN or minus infinity as an attribute are not modelled. *)
Inductive num := PyInt (z : Z) | PyFloat (r : R) | PyInf.
Definition nval (n : num) : xr :=
  match n with PyInt z => Fin (IZR z) | PyFloat r => Fin r | PyInf => PInf end.
Definition is_float (n : num) : bool :=
  match n with PyInt _ => false | PyFloat _ | PyInf => true end.

(** [step_counts: Union[int, List[int]]] (dp_event.py 370). *)
Inductive steps := OneTree (z : Z) | Trees (l : list Z).

(** python/dp_accounting/dp_accounting/dp_event.py 214-412: the DpEvent classes
    and their attributes.  The type of floating point attributes is a parameter:
    [num] for events as Python sees them, [xr] for events up to Python's [==]. *)
Inductive event (N : Type) :=
| NoOp                                             (* 214-221 *)
| NonPrivate                                       (* 224-231 *)
| Unsupported                                      (* 234-242 *)
| RandResp (noise_parameter : N) (num_buckets : Z) (* 245-260 *)
| Gaussian (noise_multiplier : N)                  (* 263-271 *)
| Laplace (noise_multiplier : N)                   (* 274-285 *)
| SelfComposed (e : event N) (count : Z)           (* 288-299 *)
| Composed (es : list (event N))                   (* 302-309 *)
| PoissonSampled (sampling_probability : N) (e : event N)            (* 312-321 *)
| SampledWithReplacement (source_size sample_size : Z) (e : event N)   (* 324-335 *)
| SampledWithoutReplacement (source_size sample_size : Z) (e : event N) (* 338-348 *)
| TreeAggregation (noise_multiplier : N) (step_counts : steps)        (* 351-370 *)
| RepeatAndSelect (e : event N) (mean shape : N)                      (* 373-390 *)
| MixtureOfGaussians (standard_deviation : N) (sensitivities sampling_probs : list N). (* 393-412 *)

Arguments NoOp {N}. Arguments NonPrivate {N}. Arguments Unsupported {N}.
Arguments RandResp {N}. Arguments Gaussian {N}. Arguments Laplace {N}.
Arguments SelfComposed {N}. Arguments Composed {N}. Arguments PoissonSampled {N}.
Arguments SampledWithReplacement {N}. Arguments SampledWithoutReplacement {N}.
Arguments TreeAggregation {N}. Arguments RepeatAndSelect {N}.
Arguments MixtureOfGaussians {N}.

(** Induction principle that reaches into [Composed]. *)
Section Ind.
  Context {N : Type} (P : event N -> Prop).
  Hypothesis HNoOp : P NoOp.
  Hypothesis HNonPrivate : P NonPrivate.
  Hypothesis HUnsupported : P Unsupported.
  Hypothesis HRR : forall p k, P (RandResp p k).
  Hypothesis HG : forall s, P (Gaussian s).
  Hypothesis HL : forall s, P (Laplace s).
  Hypothesis HSC : forall e c, P e -> P (SelfComposed e c).
  Hypothesis HC : forall es, Forall P es -> P (Composed es).
  Hypothesis HP : forall q e, P e -> P (PoissonSampled q e).
  Hypothesis HSWR : forall a b e, P e -> P (SampledWithReplacement a b e).
  Hypothesis HSWOR : forall a b e, P e -> P (SampledWithoutReplacement a b e).
  Hypothesis HT : forall s l, P (TreeAggregation s l).
  Hypothesis HRS : forall e m s, P e -> P (RepeatAndSelect e m s).
  Hypothesis HM : forall s a b, P (MixtureOfGaussians s a b).
  Fixpoint event_ind' (e : event N) : P e :=
    match e with
    | NoOp => HNoOp | NonPrivate => HNonPrivate | Unsupported => HUnsupported
    | RandResp p k => HRR p k | Gaussian s => HG s | Laplace s => HL s
    | SelfComposed e c => HSC e c (event_ind' e)
    | Composed es =>
        HC es ((fix go (l : list (event N)) : Forall P l :=
                  match l with
                  | [] => Forall_nil P
                  | x :: l' => Forall_cons x (event_ind' x) (go l')
                  end) es)
    | PoissonSampled q e => HP q e (event_ind' e)
    | SampledWithReplacement a b e => HSWR a b e (event_ind' e)
    | SampledWithoutReplacement a b e => HSWOR a b e (event_ind' e)
    | TreeAggregation s l => HT s l
    | RepeatAndSelect e m s => HRS e m s (event_ind' e)
    | MixtureOfGaussians s a b => HM s a b
    end.
End Ind.

(** Apply a function to every number in an event. *)
Fixpoint emap {N M} (f : N -> M) (e : event N) : event M :=
  match e with
  | NoOp => NoOp | NonPrivate => NonPrivate | Unsupported => Unsupported
  | RandResp p k => RandResp (f p) k
  | Gaussian s => Gaussian (f s)
  | Laplace s => Laplace (f s)
  | SelfComposed e c => SelfComposed (emap f e) c
  | Composed es => Composed (map (emap f) es)
  | PoissonSampled q e => PoissonSampled (f q) (emap f e)
  | SampledWithReplacement a b e => SampledWithReplacement a b (emap f e)
  | SampledWithoutReplacement a b e => SampledWithoutReplacement a b (emap f e)
  | TreeAggregation s l => TreeAggregation (f s) l
  | RepeatAndSelect e m s => RepeatAndSelect (emap f e) (f m) (f s)
  | MixtureOfGaussians s a b => MixtureOfGaussians (f s) (map f a) (map f b)
  end.

(** An event as Python compares it: numbers by value, [1 == 1.0]. *)
Definition value (e : event num) : event xr := emap nval e.

(** What a Python caller may pass for [event] and [count]. *)
Inductive event_arg := EventObj (e : event num) | NotAnEvent.
Inductive count_arg := IntCount (z : Z) | NotAnInt.

(** Calls a client can make on a [DpEventBuilder]. *)
Inductive builder_call := CallCompose (e : event_arg) (n : count_arg) | CallBuild.
