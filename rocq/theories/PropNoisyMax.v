(** C66: the noisy max mechanism. *)
From Verif Require Import Base Exn ModelNoisyMax SpecDP SpecRun SpecNoisyMax ProofNoisyMax.
Local Open Scope R_scope.

(** C66: the returned element has the largest noisy count, the first of them if several have. *)
Theorem C66_winner : forall noise e n data i, 0 < e ->
  (noisy_max noise e n data 1 = Ok [i] <->
   (i < n)%nat /\
   (forall j, (j < i)%nat -> votes data j + 2 / e * noise 0%nat j < votes data i + 2 / e * noise 0%nat i) /\
   (forall j, (j < n)%nat -> votes data j + 2 / e * noise 0%nat j <= votes data i + 2 / e * noise 0%nat i)).
Proof. exact noisy_max_winner. Qed.
Print Assumptions C66_winner.
Example C66_winner_example : noisy_max (fun _ i => match i with 1%nat => 1/2 | _ => 0 end) 1 3 [0%Z; 2%Z; 7%Z] 1 = Ok [0%nat].
Proof. exact noisy_max_example. Qed.

(** C66: it is the exponential mechanism whose utility is the number of records. *)
Theorem C66_exponential : forall e n data p, 0 < e -> winner_law (2 / e) n (votes data) p ->
  forall i, (i < n)%nat -> p i = exponential_mechanism e n (votes data) i.
Proof. exact winner_exponential. Qed.
Print Assumptions C66_exponential.
Example C66_exponential_example : forall e n data, 0 < e -> winner_law (2 / e) n (votes data) (exponential_mechanism e n (votes data)).
Proof. exact winner_exists. Qed.

(** C66: it is epsilon-differentially private when a record is replaced, and
    epsilon/2-differentially private when one is added or removed. *)
Theorem C66_private : forall e n d d' p p', 0 < e -> (0 < n)%nat ->
  winner_law (2 / e) n (votes d) p -> winner_law (2 / e) n (votes d') p' ->
  let E := mkExper nat (seq 0 n) p p' in
  valid E /\ (record_replaced d d' -> dp_both E e 0) /\ (record_added d d' -> dp_both E (e / 2) 0).
Proof. exact noisy_max_private. Qed.
Print Assumptions C66_private.
