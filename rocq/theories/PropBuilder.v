(** Properties C01, C02, C03: the event builder. *)
From Verif Require Import Base TypesEvent SpecEvent ModelBuilder ProofBuilder.

(** C01: after any calls, build() describes exactly the elementary events of the
    accepted compose calls, in order and with their multiplicities. *)
Theorem C01_builder_faithful : forall cs : list builder_call,
  atoms (value (snd (builder_build (builder_run cs)))) =
  history_atoms (by_value (accepted cs)).
Proof. exact builder_faithful. Qed.
Print Assumptions C01_builder_faithful.

(** C01: compose succeeds exactly on acceptable arguments, in every reachable state. *)
Theorem C01_builder_accepts : forall cs ea na,
  snd (builder_compose_arg (builder_run cs) ea na) =
    match ea, na with
    | EventObj e, IntCount n => if good_countsb e n then Ok tt else Err ValueError
    | _, _ => Err TypeError
    end.
Proof. exact (fun cs ea na => builder_call_result _ ea na (builder_run_inv cs)). Qed.
Print Assumptions C01_builder_accepts.

(** The boolean test used above is what the English says about counts. *)
Theorem C01_good_counts_meaning : forall (e : event num) n,
  good_countsb e n = true <-> good_counts e n.
Proof. exact good_countsb_iff. Qed.
Print Assumptions C01_good_counts_meaning.

Example C01_example :
  let g := Gaussian (PyFloat 1) in
  let g' := Gaussian (PyInt 1) in
  let cs := [CallCompose (EventObj (SelfComposed g 2)) (IntCount 3); CallBuild;
             CallCompose (EventObj NoOp) (IntCount 4);
             CallCompose (EventObj g') (IntCount 1);
             CallCompose (EventObj (SelfComposed g 0)) (IntCount 1);
             CallCompose NotAnEvent (IntCount 1)] in
  accepted cs = [(SelfComposed g 2, 3%Z); (NoOp, 4%Z); (g', 1%Z)] /\
  history_atoms (by_value (accepted cs)) = repeat (Gaussian (Fin 1)) 7.
Proof. split; reflexivity. Qed.

(** C02: the result is in canonical form. *)
Theorem C02_builder_canonical : forall cs : list builder_call,
  canonical (snd (builder_build (builder_run cs))).
Proof. exact builder_canonical. Qed.
Print Assumptions C02_builder_canonical.

(** C02: the result is a NoOp exactly when only (wrapped) NoOps were composed. *)
Theorem C02_builder_noop : forall cs : list builder_call,
  snd (builder_build (builder_run cs)) = NoOp <->
  Forall (fun r => core (fst r) = NoOp) (accepted cs).
Proof. exact builder_noop. Qed.
Print Assumptions C02_builder_noop.

(** C02: build() calls in between never change a later result. *)
Theorem C02_builder_cache_invisible : forall cs : list builder_call,
  snd (builder_build (builder_run cs)) =
  snd (builder_build (builder_run (filter not_build cs))).
Proof. exact builder_cache_invisible. Qed.
Print Assumptions C02_builder_cache_invisible.

Example C02_example :
  let cs := [CallCompose (EventObj NonPrivate) (IntCount 2); CallBuild; CallBuild;
             CallCompose (EventObj Unsupported) (IntCount 1); CallBuild] in
  filter not_build cs <> cs /\
  snd (builder_build (builder_run cs)) = Composed [SelfComposed NonPrivate 2; Unsupported].
Proof. split; [discriminate | reflexivity]. Qed.

(** C03: a compose call that raises leaves the builder (every attribute) unchanged. *)
Theorem C03_builder_rejected_call : forall b ea na b' x,
  builder_compose_arg b ea na = (b', Err x) -> b' = b.
Proof. exact builder_rejected. Qed.
Print Assumptions C03_builder_rejected_call.

Example C03_example :
  builder_compose_arg new_builder (EventObj (SelfComposed (SelfComposed NonPrivate 2) 0)) (IntCount 5)
  = (new_builder, Err ValueError).
Proof. reflexivity. Qed.
