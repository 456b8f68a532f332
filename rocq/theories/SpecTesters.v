(** Vocabulary for the statements about the divergence testers.  Nothing here refers to
    the code, apart from the records of the configuration. *)
From Verif Require Import Base Exn XReal SpecDP SpecRenyi TypesTesters.

(** The distributions of the outcome on the two inputs, as finite distributions. *)
Definition law_P (E : exper) : list (outcome E * R) := map (fun o => (o, prP E o)) (outs E).
Definition law_Q (E : exper) : list (outcome E * R) := map (fun o => (o, prQ E o)) (outs E).

(** Two mechanisms, each a function of the random outcome, have the distributions of [E]: every
    function of their results has the same mean. *)
Definition have_laws {O} (om : list (O * R)) (E : exper) (m1 m2 : O -> outcome E) : Prop :=
  forall f : outcome E -> R,
    rsum (fun o => snd o * f (m1 (fst o))) om = rsum (fun a => prP E a * f a) (outs E)
    /\ rsum (fun o => snd o * f (m2 (fst o))) om = rsum (fun a => prQ E a * f a) (outs E).

(** The guarantee that a privacy property (pure, Renyi or approximate) states about the outcomes on
    two neighbouring inputs, in both directions. *)
Definition satisfies (p : privacy_property) (E : exper) : Prop :=
  (forall q e, prop_pure p = Some q -> p_epsilon q = Some e -> dp E e 0 /\ dp (swap E) e 0) /\
  (forall q a e, prop_renyi p = Some q -> r_alpha q = Some a -> r_epsilon q = Some e -> rdp_bounded E (Fin a) (Fin e)) /\
  (forall q e d, prop_approximate p = Some q -> a_epsilon q = Some e -> a_delta q = Some d -> dp E e d /\ dp (swap E) e d).
(** Two mechanisms, each a function of the random outcome, satisfy the property. *)
Definition pair_satisfies {O A} (om : list (O * R)) (p : privacy_property) (m1 m2 : O -> A) : Prop :=
  exists outs pP pQ, let E := mkExper A outs pP pQ in valid E /\ have_laws om E m1 m2 /\ satisfies p E.

(** A tester that may keep a state, next to the tape of the mechanism. *)
Definition tape_tester {S O A V} (estimate : list A -> list A -> R -> S -> res (V * S))
    (samples1 samples2 : list A) (failure : R) (w : S * list O) : res (V * (S * list O)) :=
  let? (v, s) := estimate samples1 samples2 failure (fst w) in Ok (v, (s, snd w)).
(** A tester without a state. *)
Definition stateless {S A V} (estimate : list A -> list A -> R -> res V) (s1 s2 : list A) (failure : R) (s : S) : res (V * S) :=
  let? v := estimate s1 s2 failure in Ok (v, s).
