(** Rounding in the calibration of discrete parameters. *)
From Verif Require Import Base XReal Exn TypesEvent ModelBuilder ModelMake ModelRdp ModelAccountant ModelSearch SpecSearch.

Lemma round_near x : Rabs (IZR (Rround x) - x) <= 1/2 /\ (Rabs (IZR (Rround x) - x) = 1/2 -> Z.even (Rround x) = true).
Proof.
  unfold Rround. pose proof (Rfloor_spec x) as F. set (z := Rfloor x) in *.
  destruct (Rltb_spec (x - IZR z) (1/2)) as [L|L].
  - rewrite Rabs_left1 by lra. split; lra.
  - destruct (Rltb_spec (1/2) (x - IZR z)) as [L2|L2].
    + rewrite plus_IZR, Rabs_pos_eq by lra. split; lra.
    + destruct (Z.even z) eqn:E.
      * rewrite Rabs_left1 by lra. split; [lra | auto].
      * rewrite plus_IZR, Rabs_pos_eq by lra. split; [lra|]. intros _. rewrite Z.even_add, E. reflexivity.
Qed.

Lemma calibrate_nearest S mc get_epsilon (fresh : accountant S) make_event brentq fuel eps delta a b tol r v p :
  brentq (epsilon_gap mc get_epsilon fresh make_event true eps delta) a b (tolerance true tol) = BrentRoot r true ->
  epsilon_gap mc get_epsilon fresh make_event true eps delta r = Ok v -> xltb (Fin 0) v = false ->
  calibrate mc get_epsilon fresh make_event brentq fuel eps delta (Explicit a b) true tol = Ok p ->
  exists z, p = PyInt z /\ Rabs (IZR z - r) <= 1/2 /\ (Rabs (IZR z - r) = 1/2 -> Z.even z = true).
Proof.
  intros HB HG HV H. unfold calibrate in H. destruct (Rltb eps 0); [discriminate|].
  destruct (negb _); [discriminate|]. cbn [bind] in H.
  replace (match tol with Some t => Ok (Rmax t 1) | None => Ok 1 end) with (Ok (tolerance true tol)) in H by (destruct tol; reflexivity).
  cbn [bind] in H. rewrite HB, HG in H. cbn [bind] in H. rewrite HV in H. cbn [bind] in H.
  injection H as <-. exists (Rround r). split; [reflexivity | apply round_near].
Qed.

Lemma nearest_example :
  let mc := fun (_ : bool) (s : unit) (_ : event num) (_ : Z) => (s, Fine) in
  let get_epsilon := fun (_ : unit) (_ : R) => Ok (Fin 1) in
  let fresh := mkAcc tt new_builder in
  let make_event := fun x : num => Ok (Gaussian x) in
  let brentq := fun (_ : R -> res xr) (_ _ _ : R) => BrentRoot (9/4) true in
  epsilon_gap mc get_epsilon fresh make_event true 2 0 (9/4) = Ok (Fin (1 - 2)) /\ xltb (Fin 0) (Fin (1 - 2)) = false /\
  calibrate mc get_epsilon fresh make_event brentq 1 2 0 (Explicit 1 4) true None = Ok (PyInt 2).
Proof.
  cbv zeta. split; [reflexivity|]. assert (E : xltb (Fin 0) (Fin (1 - 2)) = false) by (cbn [xltb]; apply Rltb_false; lra).
  split; [exact E|]. unfold calibrate. rewrite Rltb_false, !Rleb_true by lra. cbn [andb negb bind].
  replace (epsilon_gap _ _ _ _ _ _ _ (9/4)) with (Ok (Fin (1 - 2))) by reflexivity. cbn [bind]. rewrite E. cbn [bind].
  do 2 f_equal. pose proof (round_near (9/4)) as [N _].
  assert (1 < IZR (Rround (9/4)) < 3) as [H0 H] by (revert N; unfold Rabs; destruct (Rcase_abs _); lra).
  apply (lt_IZR _ 3) in H. apply (lt_IZR 1) in H0. lia.
Qed.
