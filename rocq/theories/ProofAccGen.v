(** Facts about every accountant. *)
From Verif Require Import Base XReal Exn TypesEvent TypesRelation SpecEvent ModelBuilder ProofBuilder ModelAccountant SpecAccountant.

Lemma builder_compose_errval b e n b' x : builder_compose b e n = (b', Err x) -> x = ValueError.
Proof.
  revert n; induction e using event_ind'; intros n; cbn [builder_compose];
    destruct (n <? 1)%Z; try (intros [= _ <-]; reflexivity); try discriminate. apply IHe.
Qed.

Section Gen.
  Context {S : Type} (mc : bool -> S -> event num -> Z -> S * mc_out) (dry : event num -> mc_out).
  Hypothesis D1 : forall s e n, mc false s e n = (s, dry e).
  Hypothesis D2 : forall s e n, dry e = Fine -> snd (mc true s e n) <> Unsup.
  Hypothesis D3 : forall b s e n, snd (mc b s e n) <> Raise UnsupportedEventError.

  Lemma supports_pure A e : acc_supports mc A e =
    (A, match dry e with Fine => Ok true | Unsup => Ok false | Raise x => Err x end).
  Proof. unfold acc_supports. rewrite D1. destruct A; reflexivity. Qed.

  Lemma compose_unsup A ea n A' : acc_compose mc A ea n = (A', Err UnsupportedEventError) ->
    A' = A /\ exists e, ea = EventObj e /\ dry e = Unsup.
  Proof.
    destruct ea as [e|]; cbn [acc_compose]; [|discriminate]. rewrite D1.
    pose proof (D3 false (acc_state A) e n) as N. rewrite D1 in N. cbn [snd] in N.
    destruct (dry e) as [| |x] eqn:Dr.
    - destruct (builder_compose (acc_ledger A) e n) as [b [u|x]] eqn:B.
      + pose proof (D3 true (acc_state A) e n) as N'. destruct (mc true (acc_state A) e n) as [s2 [| |x]]; cbn [snd] in N';
          intros [= _ H]; subst; congruence.
      + intros [= _ ->]. apply builder_compose_errval in B. discriminate.
    - intros [= <-]. split; [destruct A; reflexivity|]. exists e. split; [reflexivity | assumption].
    - intros [= _ ->]. congruence.
  Qed.

  Lemma unsup_compose A e n : dry e = Unsup -> acc_compose mc A (EventObj e) n = (A, Err UnsupportedEventError).
  Proof. intros H. cbn [acc_compose]. rewrite D1, H. destruct A; reflexivity. Qed.

  Lemma supports_iff A A' e n :
    snd (acc_compose mc A (EventObj e) n) = Err UnsupportedEventError <-> snd (acc_supports mc A' e) = Ok false.
  Proof.
    rewrite supports_pure. cbn [snd]. split.
    - intros H. destruct (acc_compose mc A (EventObj e) n) as [A1 r] eqn:C. cbn [snd] in H. subst r.
      apply compose_unsup in C. destruct C as (_ & e' & [= <-] & ->). reflexivity.
    - intros H. rewrite unsup_compose; [reflexivity|]. destruct (dry e); congruence.
  Qed.

  (** supports raising is the only other case in which it is not True. *)
  Lemma supports_raise A A' e n x : snd (acc_supports mc A' e) = Err x ->
    acc_compose mc A (EventObj e) n = (A, Err x).
  Proof.
    rewrite supports_pure. cbn [snd acc_compose]. rewrite D1. destruct (dry e); try discriminate.
    intros [= ->]. destruct A; reflexivity.
  Qed.

  Lemma compose_Ok A e n A' : acc_compose mc A (EventObj e) n = (A', Ok tt) ->
    dry e = Fine /\ exists b, builder_compose (acc_ledger A) e n = (b, Ok tt) /\ acc_ledger A' = b /\
    mc true (acc_state A) e n = (acc_state A', Fine).
  Proof.
    cbn [acc_compose]. rewrite D1. destruct (dry e) eqn:Dr; try discriminate.
    destruct (builder_compose (acc_ledger A) e n) as [b [u|x]] eqn:B; [|discriminate].
    pose proof (D2 (acc_state A) e n Dr) as N. destruct (mc true (acc_state A) e n) as [s2 [| |x]]; cbn [snd] in N; try congruence.
    intros [= <-]. split; [reflexivity|]. exists b. destruct u. repeat split; assumption.
  Qed.
  Lemma compose_fine A e n s2 : dry e = Fine -> good_countsb e n = true -> builder_inv (acc_ledger A) ->
    mc true (acc_state A) e n = (s2, Fine) ->
    acc_compose mc A (EventObj e) n = (mkAcc s2 (fst (builder_compose (acc_ledger A) e n)), Ok tt).
  Proof.
    intros Dr G I M. cbn [acc_compose]. rewrite D1, Dr.
    pose proof (builder_compose_spec (acc_ledger A) e n (proj1 I)) as B. rewrite G in B. destruct B as [B _].
    destruct (builder_compose (acc_ledger A) e n) as [b r]. cbn [snd fst] in *. subst r. rewrite M. reflexivity.
  Qed.

  (** The ledger of every reachable accountant is a builder state. *)
  Lemma step_inv A c : builder_inv (acc_ledger A) -> builder_inv (acc_ledger (acc_step mc A c)).
  Proof.
    intros I. destruct c as [ea n|e|]; cbn [acc_step].
    - destruct ea as [e|]; cbn [acc_compose]; [|assumption]. rewrite D1. destruct (dry e); cbn [fst acc_ledger]; try assumption.
      pose proof (builder_compose_inv (acc_ledger A) e n I) as B.
      destruct (builder_compose (acc_ledger A) e n) as [b [u|x]]; cbn [fst] in *; [|assumption].
      destruct (mc true (acc_state A) e n) as [s2 r]. assumption.
    - rewrite supports_pure. assumption.
    - pose proof (builder_step_inv (acc_ledger A) CallBuild I) as B. unfold acc_get_ledger. cbn [builder_step] in B.
      destruct (builder_build (acc_ledger A)). assumption.
  Qed.
  Lemma runs_inv A h A' : runs mc A h A' -> builder_inv (acc_ledger A) -> builder_inv (acc_ledger A').
  Proof.
    intros R. induction R as [|A e n A1 h A' C R IH]; intros I; [assumption|]. apply IH.
    pose proof (step_inv A (CallAcc (EventObj e) n) I) as X. cbn [acc_step] in X. rewrite C in X. exact X.
  Qed.

  Lemma runs_app A h1 A1 h2 A2 : runs mc A h1 A1 -> runs mc A1 h2 A2 -> runs mc A (h1 ++ h2) A2.
  Proof. intros R1 R2. induction R1; cbn; [assumption|]. eapply runs_cons; eauto. Qed.
End Gen.

Lemma new_inv : builder_inv new_builder.
Proof. apply (builder_run_inv []). Qed.
