(** The RDP accountant adds one vector per elementary event. *)
From Coq Require Import Permutation.
From Verif Require Import Base XReal Exn TypesEvent TypesRelation SpecEvent ModelBuilder ProofBuilder ModelMake ModelRdp
  ModelAccountant SpecAccountant ProofAccGen ProofAccRdp.
Local Arguments Rltb : simpl never.
Local Arguments Rleb : simpl never.
Local Arguments Reqb : simpl never.

(** Addition of floats and of vectors. *)
Lemma xadd_comm x y : xadd x y = xadd y x.
Proof. destruct x, y; cbn; try reflexivity. f_equal. lra. Qed.
Lemma xadd_assoc x y z : xadd x (xadd y z) = xadd (xadd x y) z.
Proof. destruct x, y, z; cbn; try reflexivity. f_equal. lra. Qed.
Lemma xadd_0_l x : xadd (Fin 0) x = x.
Proof. destruct x; cbn; try reflexivity. f_equal. lra. Qed.
Lemma xmul_1 x : xmul (Fin 1) x = x.
Proof.
  destruct x; cbn; unfold inf_times; try (rewrite (Rltb_true 0 1) by lra); try reflexivity. f_equal. lra.
Qed.
Lemma xmul_succ n x : (1 <= n)%Z -> xmul (Fin (IZR (n + 1))) x = xadd x (xmul (Fin (IZR n)) x).
Proof.
  intros H. apply IZR_le in H. destruct x; cbn; unfold inf_times; rewrite ?plus_IZR;
    try (rewrite (Rltb_true 0 (IZR n + 1)) by lra; rewrite (Rltb_true 0 (IZR n)) by lra); try reflexivity.
  f_equal. lra.
Qed.
Lemma vec_add_comm : forall s v, vec_add s v = vec_add v s.
Proof.
  unfold vec_add. induction s as [|x s IH]; intros [|y v]; try reflexivity. cbn. f_equal; [apply xadd_comm | apply IH].
Qed.
Lemma vec_add_assoc : forall s v w, vec_add s (vec_add v w) = vec_add (vec_add s v) w.
Proof.
  unfold vec_add. induction s as [|x s IH]; intros [|y v] [|z w]; try reflexivity. cbn. f_equal; [apply xadd_assoc | apply IH].
Qed.
Lemma vec_add_length s v k : length s = k -> length v = k -> length (vec_add s v) = k.
Proof. intros <- H. unfold vec_add. rewrite map_length, combine_length. lia. Qed.
Lemma vec_add_0 k v : length v = k -> vec_add (repeat (Fin 0) k) v = v.
Proof.
  intros <-. unfold vec_add. induction v as [|x v IH]; [reflexivity|]. cbn. f_equal; [apply xadd_0_l | apply IH].
Qed.
Lemma vec_add_0_r k v : length v = k -> vec_add v (repeat (Fin 0) k) = v.
Proof. intros H. rewrite vec_add_comm. apply vec_add_0, H. Qed.
Lemma vec_scale_1 v : vec_scale 1 v = v.
Proof. unfold vec_scale. rewrite <- (map_id v) at 2. apply map_ext. intros; apply xmul_1. Qed.
Lemma vec_scale_succ n v : (1 <= n)%Z -> vec_scale (n + 1) v = vec_add v (vec_scale n v).
Proof.
  intros H. unfold vec_scale, vec_add. induction v as [|x v IH]; [reflexivity|]. cbn. f_equal; [apply xmul_succ, H | apply IH].
Qed.
Lemma vec_scale_length n v : length (vec_scale n v) = length v.
Proof. apply map_length. Qed.

Lemma vec_sum_length k l : Forall (fun v => length v = k) l -> length (vec_sum k l) = k.
Proof.
  induction 1 as [|v l H _ IH]; cbn [vec_sum fold_right]; [apply repeat_length | apply vec_add_length; assumption].
Qed.
Lemma vec_sum_app k l1 l2 : Forall (fun v => length v = k) l1 -> Forall (fun v => length v = k) l2 ->
  vec_sum k (l1 ++ l2) = vec_add (vec_sum k l1) (vec_sum k l2).
Proof.
  intros H1 H2. induction H1 as [|v l H _ IH]; cbn [vec_sum fold_right app].
  - symmetry. apply vec_add_0, vec_sum_length, H2.
  - fold (vec_sum k (l ++ l2)). fold (vec_sum k l). rewrite IH. apply vec_add_assoc.
Qed.
Lemma vec_sum_perm k l l' : Permutation l l' -> vec_sum k l = vec_sum k l'.
Proof.
  induction 1; cbn [vec_sum fold_right]; [reflexivity | | | congruence].
  - fold (vec_sum k l). fold (vec_sum k l'). congruence.
  - rewrite !vec_add_assoc. f_equal. apply vec_add_comm.
Qed.
Lemma vec_sum_repeat k n v : length v = k -> (1 <= n)%Z -> vec_sum k (copies (Z.to_nat n) [v]) = vec_scale n v.
Proof.
  intros L H. replace n with (Z.of_nat (S (Z.to_nat (n - 1)))) by lia. rewrite Nat2Z.id.
  generalize (Z.to_nat (n - 1)) as m. clear H. induction m as [|m IH].
  - cbn [copies app vec_sum fold_right]. rewrite vec_scale_1. apply vec_add_0_r, L.
  - change (copies (S (S m)) [v]) with (v :: copies (S m) [v]). cbn [vec_sum fold_right].
    fold (vec_sum k (copies (S m) [v])). rewrite IH.
    replace (Z.of_nat (S (S m))) with (Z.of_nat (S m) + 1)%Z by lia. symmetry. apply vec_scale_succ. lia.
Qed.

Lemma copies_In {A} (x : A) l : forall n, In x (copies n l) -> In x l.
Proof. induction n as [|n IH]; cbn [copies]; [intros []|]. rewrite in_app_iff. tauto. Qed.
Lemma copies_In_iff {A} (x : A) l n : (1 <= n)%nat -> In x (copies n l) <-> In x l.
Proof. intros H. split; [apply copies_In|]. destruct n as [|n]; [lia|]. cbn [copies]. rewrite in_app_iff. tauto. Qed.
Lemma copies_map {A B} (f : A -> B) l : forall n, map f (copies n l) = copies n (map f l).
Proof. induction n as [|n IH]; cbn [copies]; [reflexivity|]. rewrite map_app. congruence. Qed.
Lemma copies_add {A} (l : list A) : forall n m, copies (n + m) l = copies n l ++ copies m l.
Proof. induction n as [|n IH]; intros m; cbn [copies Nat.add]; [reflexivity|]. rewrite IH. apply app_assoc. Qed.
Lemma copies_copies {A} (l : list A) c : forall n, copies n (copies c l) = copies (c * n) l.
Proof.
  induction n as [|n IH]; cbn [copies]; [rewrite Nat.mul_0_r; reflexivity|]. rewrite IH, Nat.mul_succ_r, Nat.add_comm, copies_add. reflexivity.
Qed.
Lemma copies_app_perm {A} (l1 l2 : list A) : forall n, Permutation (copies n l1 ++ copies n l2) (copies n (l1 ++ l2)).
Proof.
  induction n as [|n IH]; cbn [copies]; [reflexivity|].
  rewrite <- !app_assoc. apply Permutation_app_head. rewrite Permutation_app_swap_app. apply Permutation_app_head, IH.
Qed.

(** Lengths of the vectors that are added. *)
Lemma map_res_length {A B} (f : A -> res B) : forall l v, map_res f l = Ok v -> length v = length l.
Proof.
  induction l as [|a l IH]; intros v; cbn [map_res].
  - intros [= <-]. reflexivity.
  - destruct (f a) as [b|x]; [|discriminate]. cbn [bind]. destruct (map_res f l) as [bs|x]; [|discriminate]. cbn [bind].
    intros [= <-]. cbn. f_equal. apply IH. reflexivity.
Qed.
Lemma rs_monotone_length orders : forall todo done v, rs_monotone orders done todo = Ok v -> length v = (length done + length todo)%nat.
Proof.
  induction todo as [|[a x] todo IH]; intros done v; cbn [rs_monotone].
  - intros [= <-]. rewrite map_length. cbn. lia.
  - destruct (pymin_list _) as [m|]; [|discriminate]. cbn [bind]. intros H. apply IH in H. rewrite app_length in H. cbn in *. lia.
Qed.
Lemma rs_length fuel orders rdp mean shape v : rdp_repeat_and_select fuel orders rdp mean shape = Ok v -> length v = length orders.
Proof.
  unfold rdp_repeat_and_select. destruct (xltb shape (Fin 0)); [discriminate|]. destruct (xltb mean (Fin 1)); [discriminate|].
  destruct (Nat.eqb_spec (length orders) (length rdp)) as [E|]; [cbn [negb]|discriminate].
  assert (P : forall f, map_res f (combine orders rdp) = Ok v -> length v = length orders).
  { intros f H. apply map_res_length in H. rewrite H, combine_length. lia. }
  destruct shape as [s| | |]; try apply P.
  destruct (gamma_tnb _ _ _ _) as [g|]; [|discriminate]. cbn [bind]. destruct (Rleb g 0); [discriminate|].
  destruct (npmin _) as [m|]; [|discriminate]. cbn [bind]. intros H. apply rs_monotone_length in H.
  rewrite combine_length, map_length, combine_length in H. cbn in H. lia.
Qed.

Lemma poisson_length frac q sg orders v : rdp_poisson_gaussian frac q sg orders = Ok v -> length v = length orders.
Proof.
  unfold rdp_poisson_gaussian. destruct q; try discriminate. destruct (negb _); [discriminate|].
  destruct sg; [|discriminate]. destruct (xltb s (Fin 0)); [discriminate|]. intros [= <-]. apply map_length.
Qed.
Lemma tree_length s st orders v : rdp_tree s st orders = Ok v -> length v = length orders.
Proof.
  unfold rdp_tree. destruct (xltb s (Fin 0)); [discriminate|]. destruct (xeqb s (Fin 0)).
  - intros [= <-]. apply map_length.
  - destruct (no_steps st); [discriminate|]. destruct (existsb _ _); [discriminate|]. intros [= <-]. apply map_length.
Qed.
Lemma rr_length p k orders rel v : rdp_randomized_response p k orders rel = Ok v -> length v = length orders.
Proof.
  unfold rdp_randomized_response. destruct p; try discriminate. destruct (_ || _)%bool; [discriminate|].
  destruct (k <? 1)%Z; [discriminate|]. apply map_res_length.
Qed.

(** An elementary event. *)
Definition atom {N} (e : event N) : Prop :=
  match e with NoOp | SelfComposed _ _ | Composed _ => False | _ => True end.
Lemma atoms_atom {N} (e a : event N) : In a (atoms e) -> atom a.
Proof.
  induction e as [ | | | p k | sg | sg | e c IH | es IH | q e IH | u b e IH | u b e IH | sg l | e m sh IH | sg u b ] using event_ind';
    cbn [atoms]; try (intros [<-|[]]; exact I); try (intros []; fail).
  - intros H. apply IH, (copies_In _ _ _ H).
  - rewrite in_flat_map. intros (x & I & J). rewrite Forall_forall in IH. exact (IH x I J).
Qed.
Lemma atom_atoms {N} (a : event N) : atom a -> atoms a = [a].
Proof. destruct a; cbn; try reflexivity; tauto. Qed.

Section Rdp.
  Context (frac : R -> xr -> xr -> xr) (fuel : nat) (rel : relation) (orders : list xr).
  Notation mc := (rdp_mc frac fuel rel orders).
  Notation k := (length orders).
  Notation zeros := (repeat (Fin 0) k).

  Lemma zeros_map : map (fun _ => Fin 0) orders = zeros.
  Proof. clear. induction orders as [|x l IH]; cbn; congruence. Qed.

  (** Either composing the event always adds a multiple of a fixed vector, or it always fails. *)
  Definition adds (e : event num) (u : list xr) : Prop :=
    length u = k /\ forall s n, length s = k -> (1 <= n)%Z -> mc true s e n = (vec_add s (vec_scale n u), Fine).
  Definition fails (e : event num) : Prop := forall s n, snd (mc true s e n) <> Fine.

  Lemma charge_adds e v : (forall s n, mc true s e n = charge s n v) -> (forall u, v = Ok u -> length u = k) ->
    (exists u, adds e u) \/ fails e.
  Proof.
    intros H L. destruct v as [u|x].
    - left. exists u. split; [apply L; reflexivity|]. intros. rewrite H. reflexivity.
    - right. intros s n. rewrite H. discriminate.
  Qed.
  Lemma atom_adds e : atom e -> (exists u, adds e u) \/ fails e.
  Proof.
    intros A.
    assert (U : forall r, (forall s n, mc true s e n = (s, r)) -> r <> Fine -> (exists u, adds e u) \/ fails e).
    { intros r H N. right. intros s n. rewrite H. exact N. }
    destruct e as [ | | | p b | sg | sg | e c | es | q e | a b e | a b e | sg l | e m sh | sg a b ]; try destruct A;
      try (apply (U Unsup); [reflexivity | discriminate]); cbn [rdp_mc].
    - left. exists (map (fun _ => PInf) orders). split; [apply map_length|]. intros s n L H. cbn [rdp_mc]. f_equal.
      revert s L. clear - H. induction orders as [|o l IH]; intros [|x s] L; try discriminate; [reflexivity|].
      cbn in L. injection L as L. cbn [map]. unfold vec_add, vec_scale in *. cbn [map combine fst snd]. f_equal; [|exact (IH s L)].
      f_equal. cbn. unfold inf_times. rewrite (Rltb_true 0 (IZR n)); [reflexivity|]. apply IZR_le in H. lra.
    - destruct (relation_eqb rel ADD_OR_REMOVE_ONE) eqn:E; [apply (U Unsup); [intros; cbn [rdp_mc]; rewrite E; reflexivity | discriminate]|].
      eapply charge_adds; [intros; cbn [rdp_mc]; rewrite E; reflexivity | apply rr_length].
    - eapply charge_adds; [reflexivity | apply poisson_length].
    - destruct (nval sg) as [x| | |] eqn:E;
        try (eapply charge_adds; [intros; cbn [rdp_mc]; rewrite E; reflexivity | intros u; apply map_res_length]).
      destruct (Reqb x 0) eqn:E0.
      + apply (U (Raise ZeroDivisionError)); [intros; cbn [rdp_mc]; rewrite E, E0; reflexivity | discriminate].
      + eapply charge_adds; [intros; cbn [rdp_mc]; rewrite E, E0; reflexivity | intros u; apply map_res_length].
    - destruct (relation_eqb rel REPLACE_ONE) eqn:E; [apply (U Unsup); [intros; cbn [rdp_mc]; rewrite E; reflexivity | discriminate]|].
      destruct (effective_noise e) as [[n0|bad|]|x] eqn:F.
      + eapply charge_adds; [intros; cbn [rdp_mc]; rewrite E, F; reflexivity | apply poisson_length].
      + apply (U Unsup); [intros; cbn [rdp_mc]; rewrite E, F; reflexivity | discriminate].
      + eapply charge_adds; [intros; cbn [rdp_mc]; rewrite E, F; reflexivity | apply poisson_length].
      + apply (U (Raise x)); [intros; cbn [rdp_mc]; rewrite E, F; reflexivity | discriminate].
    - destruct (negb (relation_eqb rel REPLACE_ONE)) eqn:E; [apply (U Unsup); [intros; cbn [rdp_mc]; rewrite E; reflexivity | discriminate]|].
      destruct (effective_noise e) as [[n0|bad|]|x] eqn:F.
      + destruct (a =? 0)%Z eqn:E0; [apply (U (Raise ZeroDivisionError)); [intros; cbn [rdp_mc]; rewrite E, F, E0; reflexivity | discriminate]|].
        eapply charge_adds; [intros; cbn [rdp_mc]; rewrite E, F, E0; reflexivity | intros u; apply map_res_length].
      + apply (U Unsup); [intros; cbn [rdp_mc]; rewrite E, F; reflexivity | discriminate].
      + destruct (a =? 0)%Z eqn:E0; [apply (U (Raise ZeroDivisionError)); [intros; cbn [rdp_mc]; rewrite E, F, E0; reflexivity | discriminate]|].
        eapply charge_adds; [intros; cbn [rdp_mc]; rewrite E, F, E0; reflexivity | intros u; apply map_res_length].
      + apply (U (Raise x)); [intros; cbn [rdp_mc]; rewrite E, F; reflexivity | discriminate].
    - destruct (negb (relation_eqb rel REPLACE_SPECIAL)) eqn:E; [apply (U Unsup); [intros; cbn [rdp_mc]; rewrite E; reflexivity | discriminate]|].
      eapply charge_adds; [intros; cbn [rdp_mc]; rewrite E; reflexivity | apply tree_length].
    - destruct (mc true (map (fun _ => Fin 0) orders) e 1) as [s1 r] eqn:E.
      destruct r as [| |x]; [|right; intros s n; cbn [rdp_mc]; rewrite E; discriminate ..].
      destruct (rdp_repeat_and_select fuel orders s1 (nval m) (nval sh)) as [v|x] eqn:F;
        [|right; intros s n; cbn [rdp_mc]; rewrite E, F; discriminate].
      left. exists v. split; [apply rs_length in F; exact F|]. intros s n L H. cbn [rdp_mc]. rewrite E, F, vec_add_comm. reflexivity.
  Qed.

  Notation unit_charge := (unit_charge frac fuel rel orders).
  Notation composes := (composes frac fuel rel orders).

  Notation dry := (rdp_dry frac fuel rel orders).
  Notation pure := (rdp_dry_pure frac fuel rel orders).

  (** A real run that succeeds has a dry run that succeeds. *)
  Lemma fine_dry : forall e s n, snd (mc true s e n) = Fine -> dry e = Fine.
  Proof.
    induction e as [ | | | p b | sg | sg | e c IH | es IH | q e IH | a b e IH | a b e IH | sg l | e m sh IH | sg a b ] using event_ind';
      intros s n; unfold rdp_dry; cbn [rdp_mc]; try discriminate; try reflexivity.
    - destruct (relation_eqb _ _); [discriminate|]. reflexivity.
    - rewrite pure. apply IH.
    - change (snd (mc true s (Composed es) n) = Fine -> snd (mc false [] (Composed es) 0) = Fine). rewrite !rdp_composed.
      revert s. induction IH as [|x l H _ IH2]; intros s; [reflexivity|]. cbn [seq_mc].
      pose proof (H s n) as Hx. destruct (mc true s x n) as [s1 [| |y]]; try discriminate. intros F.
      rewrite pure, Hx by reflexivity. exact (IH2 s1 F).
    - destruct (relation_eqb _ _); [discriminate|]. destruct (effective_noise e) as [[]|]; try discriminate; reflexivity.
    - destruct (negb _); [discriminate|]. destruct (effective_noise e) as [[]|]; try discriminate; reflexivity.
    - destruct (negb _); [discriminate|]. reflexivity.
    - specialize (IH (map (fun _ => Fin 0) orders) 1%Z).
      destruct (mc true (map (fun _ => Fin 0) orders) e 1) as [s1 [| |x]]; cbn [snd] in *; try discriminate.
      intros _. rewrite pure, IH by reflexivity. reflexivity.
  Qed.

  Lemma atom_composes a : atom a -> composes a -> adds a (unit_charge a).
  Proof.
    intros A C. destruct (atom_adds a A) as [(u & L & H)|F].
    - assert (E : unit_charge a = u).
      { unfold unit_charge, composes in *. cbn [acc_compose] in *. rewrite pure in *. destruct (dry a); try discriminate.
        cbn [acc_ledger rdp_new acc_state] in *. destruct (builder_compose new_builder a 1) as [b [|]]; try discriminate.
        rewrite zeros_map, H in * by (try apply repeat_length; lia). cbn. rewrite vec_scale_1. apply vec_add_0, L. }
      rewrite E. split; assumption.
    - exfalso. unfold composes in C. destruct (acc_compose mc (rdp_new orders) (EventObj a) 1) as [A' r] eqn:E. cbn in C. subst r.
      apply (compose_Ok mc dry pure (rdp_fine_unsup frac fuel rel orders)) in E. destruct E as (_ & b & _ & _ & E).
      apply (F (acc_state (rdp_new orders)) 1%Z). rewrite E. reflexivity.
  Qed.
  Lemma fine_composes a s n : atom a -> snd (mc true s a n) = Fine -> composes a.
  Proof.
    intros A F. destruct (atom_adds a A) as [(u & L & H)|N]; [|destruct (N s n F)].
    unfold composes. erewrite (compose_fine mc dry pure); [reflexivity | eapply fine_dry; exact F | | apply new_inv |].
    - destruct a; try reflexivity; destruct A.
    - cbn [acc_state rdp_new]. rewrite zeros_map. apply H; [apply repeat_length | lia].
  Qed.

  Definition total (l : list (event num)) : list xr := vec_sum k (map unit_charge l).
  Lemma units_length l : Forall atom l -> Forall composes l -> Forall (fun v => length v = k) (map unit_charge l).
  Proof.
    intros A C. rewrite Forall_forall in *. intros v. rewrite in_map_iff. intros (a & <- & I).
    apply (atom_composes a (A a I) (C a I)).
  Qed.
  Lemma copies_Forall {A} (P : A -> Prop) l n : Forall P l -> Forall P (copies n l).
  Proof. rewrite !Forall_forall. intros H x I. apply H, (copies_In _ _ _ I). Qed.
  Lemma atoms_Forall (e : event num) : Forall atom (atoms e).
  Proof. apply Forall_forall. intros a. apply atoms_atom. Qed.

  (** The effect of composing any event. *)
  Lemma event_adds : forall e n s, pos_counts e -> (1 <= n)%Z -> length s = k ->
    (Forall composes (atoms e) -> mc true s e n = (vec_add s (total (copies (Z.to_nat n) (atoms e))), Fine)) /\
    (snd (mc true s e n) = Fine -> Forall composes (atoms e)).
  Proof.
    assert (ATOM : forall e n s, atom e -> (1 <= n)%Z -> length s = k ->
      (Forall composes (atoms e) -> mc true s e n = (vec_add s (total (copies (Z.to_nat n) (atoms e))), Fine)) /\
      (snd (mc true s e n) = Fine -> Forall composes (atoms e))).
    { intros e n s A N L. rewrite (atom_atoms e A). split.
      - intros C. inversion_clear C as [|? ? C1 _]. destruct (atom_composes e A C1) as [LU H]. rewrite (H s n L N). f_equal.
        f_equal. unfold total. rewrite copies_map. symmetry. apply vec_sum_repeat; assumption.
      - intros F. constructor; [|constructor]. eapply fine_composes; eassumption. }
    induction e as [ | | | p b | sg | sg | e c IH | es IH | q e IH | a b e IH | a b e IH | sg l | e m sh IH | sg a b ] using event_ind';
      intros n s P N L; try (apply ATOM; [exact I | assumption | assumption]).
    - split; [|constructor]. intros _. cbn [rdp_mc atoms]. f_equal.
      replace (copies (Z.to_nat n) (@nil (event num))) with (@nil (event num)) by (clear; induction (Z.to_nat n); cbn; congruence).
      symmetry. apply vec_add_0_r, L.
    - destruct P as [P1 P2]. cbn [atoms].
      assert (CN : (1 <= c * n)%Z) by nia. specialize (IH (c * n)%Z s P2 CN L). destruct IH as [IH1 IH2]. cbn [rdp_mc]. split.
      + intros C. rewrite IH1.
        * rewrite copies_copies. do 3 f_equal. rewrite Z2Nat.inj_mul by lia. reflexivity.
        * rewrite Forall_forall in *. intros a I. apply C. apply copies_In_iff; [lia | exact I].
      + intros F. apply copies_Forall, IH2, F.
    - rewrite rdp_composed. change (atoms (Composed es)) with (flat_map atoms es).
      revert s L P. induction IH as [|x l H _ IH2]; intros s L P.
      + cbn [flat_map seq_mc]. split; [|constructor]. intros _. f_equal.
        replace (copies (Z.to_nat n) (@nil (event num))) with (@nil (event num)) by (clear; induction (Z.to_nat n); cbn; congruence).
        symmetry. apply vec_add_0_r, L.
      + destruct P as [P1 P2]. cbn [flat_map seq_mc]. specialize (H n s P1 N L). destruct H as [H1 H2].
        rewrite Forall_app. split.
        * intros [C1 C2]. rewrite (H1 C1).
          assert (LU : length (total (copies (Z.to_nat n) (atoms x))) = k).
          { apply vec_sum_length, units_length; apply copies_Forall; [apply atoms_Forall | exact C1]. }
          destruct (IH2 (vec_add s (total (copies (Z.to_nat n) (atoms x)))) (vec_add_length _ _ _ L LU) P2) as [IH3 _].
          rewrite (IH3 C2), <- vec_add_assoc. do 2 f_equal. unfold total.
          assert (FA : Forall atom (flat_map atoms l)).
          { apply Forall_forall. intros a. rewrite in_flat_map. intros (y & _ & J). exact (atoms_atom y a J). }
          rewrite <- vec_sum_app by (apply units_length; apply copies_Forall; try assumption; apply atoms_Forall).
          rewrite <- map_app. apply vec_sum_perm, Permutation_map, copies_app_perm.
        * destruct (mc true s x n) as [s1 [| |y]] eqn:E; try discriminate. intros F.
          assert (C1 : Forall composes (atoms x)) by (apply H2; reflexivity). split; [exact C1|].
          assert (L1 : length s1 = k).
          { specialize (H1 C1). injection H1 as ->. apply vec_add_length; [assumption|].
            apply vec_sum_length, units_length; apply copies_Forall; [apply atoms_Forall | exact C1]. }
          apply (IH2 s1 L1 P2), F.
  Qed.

  Lemma pos_good : forall (e : event num) n, pos_counts e -> (1 <= n)%Z -> good_countsb e n = true.
  Proof.
    induction e as [ | | | p b | sg | sg | e c IH | es IH | q e IH | a b e IH | a b e IH | sg l | e m sh IH | sg a b ] using event_ind';
      intros n P N; cbn [good_countsb]; rewrite ?andb_true_r; rewrite ?(proj2 (Z.leb_le 1 n) N); try reflexivity.
    destruct P as [P1 P2]. cbn [andb]. apply IH; [assumption | nia].
  Qed.

  (** A history of successful compose calls. *)
  Lemma runs_adds h : forall A A', runs mc A h A' -> pos_history h -> length (acc_state A) = k ->
    Forall composes (history_atoms h) /\ acc_state A' = vec_add (acc_state A) (total (history_atoms h)).
  Proof.
    intros A A' R. induction R as [A|A e n A1 h A' C R IH]; intros P L.
    - split; [constructor|]. symmetry. apply vec_add_0_r, L.
    - inversion_clear P as [|? ? [N PE] PH]. cbn [fst snd] in *.
      apply (compose_Ok mc dry pure (rdp_fine_unsup frac fuel rel orders)) in C. destruct C as (_ & b & _ & _ & E).
      destruct (event_adds e n (acc_state A) PE N L) as [H1 H2].
      assert (C1 : Forall composes (atoms e)) by (apply H2; rewrite E; reflexivity).
      rewrite (H1 C1) in E. injection E as E.
      assert (FL : forall l, Forall atom l -> Forall composes l -> length (total l) = k) by (intros; apply vec_sum_length, units_length; assumption).
      assert (FC : Forall composes (copies (Z.to_nat n) (atoms e))) by (apply copies_Forall, C1).
      assert (FA : Forall atom (copies (Z.to_nat n) (atoms e))) by (apply copies_Forall, atoms_Forall).
      destruct (IH PH) as [C2 S]; [rewrite <- E; apply vec_add_length; [exact L | apply FL; assumption]|].
      cbn [history_atoms flat_map]. split; [apply Forall_app; split; assumption|].
      rewrite S, <- E, <- vec_add_assoc. f_equal. unfold total. rewrite map_app. symmetry.
      apply vec_sum_app; apply units_length; try assumption.
      apply Forall_forall. intros a. unfold history_atoms. rewrite in_flat_map. intros ([e' n'] & _ & J). apply copies_In in J. exact (atoms_atom e' a J).
  Qed.
  Lemma runs_exists h : forall A, pos_history h -> length (acc_state A) = k -> builder_inv (acc_ledger A) ->
    Forall composes (history_atoms h) -> exists A', runs mc A h A'.
  Proof.
    induction h as [|[e n] h IH]; intros A P L I C; [exists A; constructor|].
    inversion_clear P as [|? ? [N PE] PH]. cbn [fst snd] in *. cbn [history_atoms flat_map] in C. apply Forall_app in C. destruct C as [C1 C2].
    assert (C1' : Forall composes (atoms e)).
    { rewrite Forall_forall in *. intros a J. apply C1. apply copies_In_iff; [lia | exact J]. }
    destruct (event_adds e n (acc_state A) PE N L) as [H1 _]. specialize (H1 C1').
    assert (Cm : acc_compose mc A (EventObj e) n =
      (mkAcc (vec_add (acc_state A) (total (copies (Z.to_nat n) (atoms e)))) (fst (builder_compose (acc_ledger A) e n)), Ok tt)).
    { apply (compose_fine mc dry pure); [eapply fine_dry; rewrite H1; reflexivity | apply pos_good; assumption | exact I | exact H1]. }
    edestruct IH as [A' R]; [exact PH | | | exact C2 | exists A'; eapply runs_cons; [exact Cm | exact R]].
    - cbn [acc_state]. apply vec_add_length; [exact L|]. apply vec_sum_length, units_length; apply copies_Forall; [apply atoms_Forall | exact C1'].
    - cbn [acc_ledger]. apply builder_compose_inv, I.
  Qed.

  Theorem rdp_additive h A : runs mc (rdp_new orders) h A -> pos_history h ->
    (forall a, In a (history_atoms h) -> composes a) /\
    acc_state A = vec_sum k (map unit_charge (history_atoms h)).
  Proof.
    intros R P. destruct (runs_adds h _ _ R P) as [C S]; [apply map_length|]. split; [apply Forall_forall, C|].
    rewrite S. cbn [acc_state rdp_new]. rewrite zeros_map. apply vec_add_0, vec_sum_length, units_length; [|exact C].
    apply Forall_forall. intros a. unfold history_atoms. rewrite in_flat_map. intros ([e' n'] & _ & J). apply copies_In in J. exact (atoms_atom e' a J).
  Qed.
  Theorem rdp_order_free h h' A : runs mc (rdp_new orders) h A -> pos_history h -> pos_history h' ->
    Permutation (history_atoms h) (history_atoms h') ->
    exists A', runs mc (rdp_new orders) h' A' /\ acc_state A' = acc_state A.
  Proof.
    intros R P P' Pm. destruct (rdp_additive h A R P) as [C S].
    destruct (runs_exists h' (rdp_new orders) P') as [A' R']; [apply map_length | apply new_inv | |].
    - apply Forall_forall. intros a I. apply C. eapply Permutation_in; [symmetry; exact Pm | exact I].
    - exists A'. split; [exact R'|]. destruct (rdp_additive h' A' R' P') as [_ S']. rewrite S, S'. symmetry.
      apply vec_sum_perm, Permutation_map, Pm.
  Qed.
End Rdp.
