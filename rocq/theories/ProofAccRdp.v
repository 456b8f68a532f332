(** The RDP accountant: dry runs, exceptions, additivity. *)
From Verif Require Import Base XReal Exn TypesEvent TypesRelation SpecEvent ModelBuilder ProofBuilder ModelMake ModelRdp
  ModelAccountant SpecAccountant ProofAccGen.
Local Arguments Rltb : simpl never.
Local Arguments Rleb : simpl never.
Local Arguments Reqb : simpl never.

(** Composition of a list of events. *)
Fixpoint seq_mc {S} (f : S -> event num -> S * mc_out) (l : list (event num)) (s : S) : S * mc_out :=
  match l with
  | [] => (s, Fine)
  | e :: l => let (s, r) := f s e in match r with Fine => seq_mc f l s | _ => (s, r) end
  end.

Lemma seq_mc_pure {S} (f : S -> event num -> S * mc_out) (g : event num -> mc_out) l s :
  (forall e s, In e l -> f s e = (s, g e)) -> fst (seq_mc f l s) = s.
Proof.
  revert s; induction l as [|e l IH]; intros s H; cbn [seq_mc]; [reflexivity|].
  rewrite (H e s) by (left; reflexivity). destruct (g e); cbn [fst]; try reflexivity.
  apply IH. intros; apply H; right; assumption.
Qed.
Lemma seq_mc_snd {S S'} (f : S -> event num -> S * mc_out) (f' : S' -> event num -> S' * mc_out) l s s' :
  (forall e s s', In e l -> snd (f s e) = snd (f' s' e)) -> snd (seq_mc f l s) = snd (seq_mc f' l s').
Proof.
  revert s s'; induction l as [|e l IH]; intros s s' H; cbn [seq_mc]; [reflexivity|].
  pose proof (H e s s' (or_introl eq_refl)) as E. destruct (f s e) as [s1 r], (f' s' e) as [s1' r']. cbn [snd] in E. subst r'.
  destruct r; cbn [snd]; try reflexivity. apply IH. intros; apply H; right; assumption.
Qed.
Lemma seq_mc_fine {S} (f : S -> event num -> S * mc_out) l s :
  snd (seq_mc f l s) = Fine -> forall e, In e l -> exists s', snd (f s' e) = Fine.
Proof.
  revert s; induction l as [|a l IH]; intros s H e; cbn [seq_mc] in H; [intros []|].
  destruct (f s a) as [s1 r] eqn:F. destruct r; cbn [snd] in H; try discriminate.
  intros [<-|I]; [exists s; rewrite F; reflexivity | eapply IH; eassumption].
Qed.
Lemma seq_mc_not {S} (f : S -> event num -> S * mc_out) (bad : mc_out) l s :
  bad <> Fine -> (forall e s, In e l -> snd (f s e) <> bad) -> snd (seq_mc f l s) <> bad.
Proof.
  intros B. revert s; induction l as [|a l IH]; intros s H; cbn [seq_mc]; [cbn; congruence|].
  pose proof (H a s (or_introl eq_refl)) as E. destruct (f s a) as [s1 r]. cbn [snd] in E.
  destruct r; cbn [snd]; try assumption. apply IH. intros; apply H; right; assumption.
Qed.

(** Results that are not UnsupportedEventError. *)
Definition clean {A} (r : res A) : Prop := r <> Err UnsupportedEventError.
Lemma clean_bind {A B} (x : res A) (f : A -> res B) : clean x -> (forall a, clean (f a)) -> clean (bind x f).
Proof. destruct x as [a|e]; cbn; intros H1 H2; [apply H2 | intros E; apply H1; congruence]. Qed.
Lemma clean_map {A B} (f : A -> res B) l : (forall a, clean (f a)) -> clean (map_res f l).
Proof.
  intros H. induction l as [|a l IH]; cbn [map_res]; [discriminate|].
  apply clean_bind; [apply H | intros b; apply clean_bind; [exact IH | intros; discriminate]].
Qed.
Ltac clean_tac := repeat first
  [ discriminate
  | apply clean_bind
  | match goal with
    | |- forall _, _ => intro
    | |- clean (if ?b then _ else _) => destruct b
    | |- clean (match ?x with _ => _ end) => destruct x
    end ].

Lemma clean_poisson frac q sg orders : clean (rdp_poisson_gaussian frac q sg orders).
Proof. unfold rdp_poisson_gaussian. clean_tac. Qed.
Lemma clean_wor q sg orders : clean (rdp_wor_gaussian q sg orders).
Proof. unfold rdp_wor_gaussian. apply clean_map. intros a. unfold wor_order. clean_tac. Qed.
Lemma clean_tree s st orders : clean (rdp_tree s st orders).
Proof. unfold rdp_tree. clean_tac. Qed.
Lemma clean_laplace eps orders : clean (map_res (laplace_rdp eps) orders).
Proof. apply clean_map. intros a. unfold laplace_rdp. clean_tac. Qed.
Lemma clean_rr p k orders rel : clean (rdp_randomized_response p k orders rel).
Proof.
  unfold rdp_randomized_response. clean_tac. apply clean_map. intros a. destruct (relation_eqb _ _).
  - unfold rr_rdp_one. clean_tac.
  - unfold rr_rdp_special. clean_tac.
Qed.
Lemma clean_argmin l : clean (argmin l).
Proof. destruct l; discriminate. Qed.
Lemma clean_delta orders rdp eps : clean (compute_delta orders rdp eps).
Proof.
  unfold compute_delta. clean_tac; [|apply clean_argmin]. apply clean_map. intros a. clean_tac.
Qed.
Lemma clean_tnb g s : clean (tnb_mean g s).
Proof. unfold tnb_mean. clean_tac. Qed.
Lemma clean_loop fuel : forall s m t a b, clean (gamma_loop fuel s m t a b).
Proof. induction fuel as [|fuel IH]; intros; cbn [gamma_loop]; clean_tac; [apply clean_tnb | apply IH | apply IH]. Qed.
Lemma clean_gamma fuel s m t : clean (gamma_tnb fuel s m t).
Proof. unfold gamma_tnb. clean_tac; apply clean_loop. Qed.
Lemma clean_monotone orders todo : forall done, clean (rs_monotone orders done todo).
Proof.
  induction todo as [|[a x] todo IH]; intros done; cbn [rs_monotone]; [discriminate|].
  apply clean_bind; [|intros; apply IH]. unfold pymin_list. clean_tac.
Qed.
Lemma clean_rs fuel orders rdp mean shape : clean (rdp_repeat_and_select fuel orders rdp mean shape).
Proof.
  unfold rdp_repeat_and_select. clean_tac; try apply clean_gamma; try apply clean_monotone; try apply clean_argmin;
    try (unfold npmin; apply clean_bind; [apply clean_argmin | intros; discriminate]);
    try (apply clean_map; intros [a r]; unfold rs_poisson_order; clean_tac; apply clean_delta).
Qed.
(** The loop over the parts of a Composed event. *)
Fixpoint eff_seq (l : list (event num)) (sum : R) : res eff :=
  match l with
  | [] => if Reqb sum 0 then Err ZeroDivisionError else Ok (EffNum (PyFloat (/ sqrt sum)))
  | e :: l =>
      let? sigma := effective_noise e in
      match sigma with
      | EffNum (PyFloat s) => if Reqb s 0 then Err ZeroDivisionError else eff_seq l (sum + / (s * s))
      | EffNum PyInf => eff_seq l (sum + 0)
      | _ => Ok sigma
      end
  end.
Lemma eff_composed es : effective_noise (Composed es) = eff_seq es 0.
Proof.
  reflexivity.
Qed.

Lemma clean_eff e : clean (effective_noise e).
Proof.
  induction e as [ | | | p k | s | s | e c IH | es IH | q e IH | a b e IH | a b e IH | s l | e m s IH | s a b ] using event_ind';
    cbn [effective_noise]; try discriminate.
  - apply clean_bind; [exact IH|]. intros sg. clean_tac.
  - change (clean (effective_noise (Composed es))). rewrite eff_composed.
    generalize 0 as z. induction IH as [|x l H _ IH2]; intros z; cbn [eff_seq]; [clean_tac|].
    apply clean_bind; [exact H|]. intros sg. destruct sg as [[| |]| |]; clean_tac; apply IH2.
Qed.

Section Rdp.
  Context (frac : R -> xr -> xr -> xr) (fuel : nat) (rel : relation) (orders : list xr).
  Notation mc := (rdp_mc frac fuel rel orders).

  Lemma rdp_composed dc s es n : mc dc s (Composed es) n = seq_mc (fun s e => mc dc s e n) es s.
  Proof. cbn [rdp_mc]. revert s. induction es as [|e es IH]; intros s; [reflexivity|]. cbn [seq_mc].
    destruct (mc dc s e n) as [s1 [| |x]]; try reflexivity. apply IH. Qed.

  Definition rdp_dry (e : event num) : mc_out := snd (mc false [] e 0).

  Lemma rdp_dry_pure s e n : mc false s e n = (s, rdp_dry e).
  Proof.
    unfold rdp_dry. revert s n.
    induction e as [ | | | p k | sg | sg | e c IH | es IH | q e IH | a b e IH | a b e IH | sg l | e m sh IH | sg a b ] using event_ind';
      intros s n; try reflexivity.
    - cbn [rdp_mc]. destruct (relation_eqb _ _); reflexivity.
    - cbn [rdp_mc]. rewrite IH. f_equal. rewrite (IH [] (c * 0)%Z). reflexivity.
    - rewrite !rdp_composed. rewrite Forall_forall in IH.
      assert (F : fst (seq_mc (fun s e => mc false s e n) es s) = s).
      { apply (seq_mc_pure _ (fun e => snd (mc false [] e 0))). intros; apply IH; assumption. }
      rewrite (surjective_pairing (seq_mc (fun s e => mc false s e n) es s)), F. f_equal.
      apply seq_mc_snd. intros x s1 s2 I. rewrite (IH x I s1 n), (IH x I s2 0%Z). reflexivity.
    - cbn [rdp_mc]. destruct (relation_eqb _ _); [reflexivity|]. destruct (effective_noise e) as [[]|]; reflexivity.
    - cbn [rdp_mc]. destruct (negb _); [reflexivity|]. destruct (effective_noise e) as [[]|]; reflexivity.
    - cbn [rdp_mc]. destruct (negb _); reflexivity.
    - cbn [rdp_mc]. rewrite (IH s 1%Z), (IH [] 1%Z). cbn [snd]. destruct (snd (mc false [] e 0)); reflexivity.
  Qed.

  Lemma charge_not s n v bad : (forall x, bad = Raise x -> v <> Err x) -> bad <> Fine -> snd (charge s n v) <> bad.
  Proof. intros H N. destruct v as [v|x]; cbn; [congruence|]. intros <-. exact (H x eq_refl eq_refl). Qed.
  Lemma charge_unsup s n v : snd (charge s n v) <> Unsup.
  Proof. apply charge_not; congruence. Qed.
  Lemma charge_clean s n v : clean v -> snd (charge s n v) <> Raise UnsupportedEventError.
  Proof. intros C. apply charge_not; [intros x [= <-]; exact C | discriminate]. Qed.

  Lemma rdp_fine_unsup s e n : rdp_dry e = Fine -> snd (mc true s e n) <> Unsup.
  Proof.
    revert s n. induction e as [ | | | p k | sg | sg | e c IH | es IH | q e IH | a b e IH | a b e IH | sg l | e m sh IH | sg a b ] using event_ind';
      intros s n; unfold rdp_dry; cbn [rdp_mc]; try discriminate.
    - destruct (relation_eqb _ _); [discriminate|]. intros _. apply charge_unsup.
    - intros _. apply charge_unsup.
    - intros _. destruct (nval sg); try apply charge_unsup. destruct (Reqb r 0); [discriminate | apply charge_unsup].
    - rewrite rdp_dry_pure. intros H. apply IH, H.
    - change (snd (mc false [] (Composed es) 0) = Fine -> snd (mc true s (Composed es) n) <> Unsup).
      rewrite !rdp_composed. intros H. rewrite Forall_forall in IH. apply seq_mc_not; [discriminate|].
      intros e s' I. apply IH; [assumption|]. destruct (seq_mc_fine _ _ _ H e I) as (s2 & F).
      rewrite rdp_dry_pure in F. exact F.
    - destruct (relation_eqb _ _); [discriminate|]. destruct (effective_noise e) as [[]|]; try discriminate; intros _; apply charge_unsup.
    - destruct (negb _); [discriminate|]. destruct (effective_noise e) as [[]|]; try discriminate; intros _;
        (destruct (a =? 0)%Z; [discriminate | apply charge_unsup]).
    - destruct (negb _); [discriminate|]. intros _. apply charge_unsup.
    - rewrite rdp_dry_pure. cbn [snd]. intros H.
      assert (H' : rdp_dry e = Fine) by (destruct (rdp_dry e); try discriminate; reflexivity).
      specialize (IH (map (fun _ => Fin 0) orders) 1%Z H').
      destruct (mc true (map (fun _ => Fin 0) orders) e 1) as [s1 [| |x]]; cbn [snd] in *; try congruence.
      destruct (rdp_repeat_and_select _ _ _ _ _); discriminate.
  Qed.

  Lemma rdp_no_raise dc s e n : snd (mc dc s e n) <> Raise UnsupportedEventError.
  Proof.
    revert dc s n. induction e as [ | | | p k | sg | sg | e c IH | es IH | q e IH | a b e IH | a b e IH | sg l | e m sh IH | sg a b ] using event_ind';
      intros dc s n; cbn [rdp_mc]; try discriminate.
    - destruct dc; discriminate.
    - destruct (relation_eqb _ _); [discriminate|]. destruct dc; [|discriminate]. apply charge_clean, clean_rr.
    - destruct dc; [|discriminate]. apply charge_clean, clean_poisson.
    - destruct dc; [|discriminate]. destruct (nval sg); try apply charge_clean, clean_laplace.
      destruct (Reqb r 0); [discriminate | apply charge_clean, clean_laplace].
    - apply IH.
    - change (snd (mc dc s (Composed es) n) <> Raise UnsupportedEventError). rewrite rdp_composed.
      rewrite Forall_forall in IH. apply seq_mc_not; [discriminate|]. intros; apply IH; assumption.
    - destruct (relation_eqb _ _); [discriminate|]. pose proof (clean_eff e) as CE.
      destruct (effective_noise e) as [[]|x]; try discriminate;
        try (destruct dc; [apply charge_clean, clean_poisson | discriminate]).
      cbn. intros [= ->]. apply CE. reflexivity.
    - destruct (negb _); [discriminate|]. pose proof (clean_eff e) as CE.
      destruct (effective_noise e) as [[]|x]; try discriminate;
        try (destruct dc; [|discriminate]; destruct (a =? 0)%Z; [discriminate | apply charge_clean, clean_wor]).
      cbn. intros [= ->]. apply CE. reflexivity.
    - destruct (negb _); [discriminate|]. destruct dc; [|discriminate]. apply charge_clean, clean_tree.
    - specialize (IH dc (if dc then map (fun _ => Fin 0) orders else s) 1%Z).
      destruct (mc dc (if dc then map (fun _ => Fin 0) orders else s) e 1) as [s1 [| |x]]; cbn [snd] in *; try congruence.
      destruct dc; [|discriminate]. pose proof (clean_rs fuel orders s1 (nval m) (nval sh)) as CR.
      destruct (rdp_repeat_and_select _ _ _ _ _) as [v|x]; [discriminate|]. cbn. intros [= ->]. apply CR. reflexivity.
  Qed.
End Rdp.
