(** The PLD accountant: dry runs, exceptions, non-private releases. *)
From Verif Require Import Base XReal Exn PyDict TypesEvent TypesRelation SpecEvent ModelBuilder ProofBuilder ModelCommon ModelPmf ModelPld ModelMake ModelRdp
  ModelAccountant SpecAccountant ProofAccGen ProofAccRdp.
Local Arguments Rltb : simpl never.
Local Arguments Rleb : simpl never.
Local Arguments Reqb : simpl never.

Ltac clean_tac ::= repeat first
  [ discriminate
  | match goal with
    | |- forall _, _ => intro
    | |- clean (bind _ _) => apply clean_bind
    | |- clean (if ?b then _ else _) => destruct b
    | |- clean (match ?x with _ => _ end) => destruct x
    end ].
Lemma clean_truncate l t p : clean (truncate_tails l t p).
Proof. unfold truncate_tails. clean_tac. Qed.
Lemma clean_pmf_compose p q t : clean (pmf_compose p q t).
Proof. unfold pmf_compose, validate_composable. clean_tac; apply clean_truncate. Qed.
Lemma clean_to_list d : clean (dictionary_to_list d).
Proof. unfold dictionary_to_list. clean_tac. Qed.
Lemma clean_dense p : clean (to_dense p).
Proof. unfold to_dense. clean_tac; apply clean_to_list. Qed.
Lemma clean_compose_pmfs p q t : clean (compose_pmfs p q t).
Proof. unfold compose_pmfs. clean_tac; try apply clean_dense; apply clean_pmf_compose. Qed.
Lemma clean_pld_compose p q t : clean (pld_compose p q t).
Proof. unfold pld_compose. clean_tac; apply clean_compose_pmfs. Qed.
Lemma clean_chernoff l n t os : forall b, clean b -> clean (fold_left (chernoff_step l n t) os b).
Proof. induction os as [|o os IH]; intros b H; cbn [fold_left]; [exact H|]. apply IH. unfold chernoff_step. clean_tac; exact H. Qed.
Lemma clean_self_convolve f l n t : clean (self_convolve f l n t).
Proof.
  unfold self_convolve. destruct l; [discriminate|]. apply clean_bind; [|intros [a b]; discriminate].
  unfold compute_self_convolve_bounds. clean_tac; apply clean_chernoff; discriminate.
Qed.
Lemma clean_dense_self f p lo l n t : clean (dense_self_compose f p lo l n t).
Proof. unfold dense_self_compose. clean_tac; apply clean_self_convolve. Qed.
Lemma clean_sparse_self p t : forall todo r, clean (sparse_self_compose_loop p r todo t).
Proof.
  induction todo as [|todo IH]; intros r; cbn [sparse_self_compose_loop]; [discriminate|].
  destruct todo; [apply clean_pmf_compose|]. apply clean_bind; [apply clean_pmf_compose | intros; apply IH].
Qed.
Lemma clean_pmf_self f p n t : clean (pmf_self_compose f p n t).
Proof. unfold pmf_self_compose. clean_tac; try apply clean_dense; try apply clean_dense_self; apply clean_sparse_self. Qed.
Lemma clean_pld_self f D n t : clean (pld_self_compose f D n t).
Proof. unfold pld_self_compose. clean_tac; apply clean_pmf_self. Qed.
Lemma clean_create d disc inf pess : clean (create_pmf d disc inf pess).
Proof. unfold create_pmf. clean_tac; apply clean_to_list. Qed.
Lemma clean_rounded d i disc p da ia sym : clean (create_from_rounded_probability d i disc p da ia sym).
Proof. unfold create_from_rounded_probability. clean_tac; apply clean_create. Qed.
Lemma clean_two {O} eqb (l u : odict O) p disc b sym : clean (from_two_pmfs eqb l u p disc b sym).
Proof. unfold from_two_pmfs, rounded_from_pmfs, round_pmf. clean_tac; apply clean_rounded. Qed.
Lemma clean_from_rr p k pess disc rel : clean (from_randomized_response p k pess disc rel).
Proof. unfold from_randomized_response. clean_tac; apply clean_two. Qed.

Section Pld.
  Context (gaussian_pld laplace_pld : xr -> xr -> res pld)
          (mixture_pld : xr -> list xr -> list xr -> res pld)
          (fast_len : nat -> nat) (rel : relation) (disc tail : R).
  Hypothesis HC : constructors_clean gaussian_pld laplace_pld mixture_pld.
  Notation mc := (pld_mc gaussian_pld laplace_pld mixture_pld fast_len rel disc tail).

  Lemma pld_composed dc s es n : mc dc s (Composed es) n = seq_mc (fun s e => mc dc s e n) es s.
  Proof. cbn [pld_mc]. revert s. induction es as [|e es IH]; intros s; [reflexivity|]. cbn [seq_mc].
    destruct (mc dc s e n) as [s1 [| |x]]; try reflexivity. apply IH. Qed.

  Definition any_state : pld_state := mkPldState false (mkPld (mkPmf 1 0 true (Sparse [])) (mkPmf 1 0 true (Sparse [])) true).
  Definition pld_dry (e : event num) : mc_out := snd (mc false any_state e 0).
  Lemma pld_dry_pure s e n : mc false s e n = (s, pld_dry e).
  Proof.
    unfold pld_dry. generalize any_state as s0. intros s0. revert s s0 n.
    induction e as [ | | | p k | sg | sg | e c IH | es IH | q e IH | a b e IH | a b e IH | sg l | e m sh IH | sg a b ] using event_ind';
      intros s s0 n; try reflexivity.
    - cbn [pld_mc]. destruct (relation_eqb _ _); reflexivity.
    - cbn [pld_mc]. rewrite (IH s s0). f_equal. rewrite (IH s0 s0 (c * 0)%Z). cbn [snd]. rewrite (IH s0 s0 0%Z). reflexivity.
    - rewrite !pld_composed. rewrite Forall_forall in IH.
      assert (F : fst (seq_mc (fun s e => mc false s e n) es s) = s).
      { apply (seq_mc_pure _ (fun e => snd (mc false s0 e 0))). intros; apply IH; assumption. }
      rewrite (surjective_pairing (seq_mc (fun s e => mc false s e n) es s)), F. f_equal.
      apply seq_mc_snd. intros x s1 s2 I. rewrite (IH x I s1 s0 n), (IH x I s2 s0 0%Z). reflexivity.
    - cbn [pld_mc]. destruct (relation_eqb _ _); [reflexivity|]. destruct e; reflexivity.
  Qed.

  Lemma pld_charge_not s o bad : (forall x, bad = Raise x -> clean o -> x = UnsupportedEventError) -> bad <> Fine -> clean o ->
    snd (pld_charge tail s o) <> bad.
  Proof.
    intros H N C. unfold pld_charge. destruct (bind o _) as [D|x] eqn:E; cbn [snd]; [congruence|]. intros <-.
    pose proof (H x eq_refl C) as ->. revert E. apply clean_bind; [exact C|]. intros a. apply clean_pld_compose.
  Qed.
  Lemma pld_charge_unsup s o : snd (pld_charge tail s o) <> Unsup.
  Proof. unfold pld_charge. destruct (bind o _); discriminate. Qed.
  Lemma pld_charge_clean s o : clean o -> snd (pld_charge tail s o) <> Raise UnsupportedEventError.
  Proof. apply pld_charge_not; [intros x [= <-]; reflexivity | discriminate]. Qed.
  Lemma clean_self D n : clean D -> clean (self_composed fast_len tail D n).
  Proof. intros H. unfold self_composed. apply clean_bind; [exact H | intros; apply clean_pld_self]. Qed.

  Lemma pld_fine_unsup s e n : pld_dry e = Fine -> snd (mc true s e n) <> Unsup.
  Proof.
    revert s n. induction e as [ | | | p k | sg | sg | e c IH | es IH | q e IH | a b e IH | a b e IH | sg l | e m sh IH | sg a b ] using event_ind';
      intros s n; unfold pld_dry; cbn [pld_mc]; try discriminate.
    - destruct (relation_eqb _ _); [discriminate|]. intros _. destruct (k =? 1)%Z; [discriminate|]. destruct (xeqb _ _); [discriminate | apply pld_charge_unsup].
    - intros _. destruct (xeqb _ _); [discriminate|]. destruct (n <? 0)%Z; [discriminate|]. destruct (n =? 0)%Z; [discriminate | apply pld_charge_unsup].
    - intros _. destruct (xeqb _ _); [discriminate | apply pld_charge_unsup].
    - rewrite pld_dry_pure. intros H. apply IH, H.
    - change (snd (mc false any_state (Composed es) 0) = Fine -> snd (mc true s (Composed es) n) <> Unsup).
      rewrite !pld_composed. intros H. rewrite Forall_forall in IH. apply seq_mc_not; [discriminate|].
      intros e s' I. apply IH; [assumption|]. destruct (seq_mc_fine _ _ _ H e I) as (s2 & F).
      rewrite pld_dry_pure in F. exact F.
    - destruct (relation_eqb _ _); [discriminate|]. destruct e; try discriminate; intros _;
        (destruct (xeqb (nval q) _); [discriminate|]; destruct (xeqb _ _); [discriminate | apply pld_charge_unsup]).
    - intros _. destruct (match a with [x] => xeqb (nval x) (Fin 0) | _ => false end); [discriminate|].
      destruct (xeqb _ _); [discriminate | apply pld_charge_unsup].
  Qed.

  Lemma pld_no_raise dc s e n : snd (mc dc s e n) <> Raise UnsupportedEventError.
  Proof.
    destruct HC as (HG & HL & HM).
    revert dc s n. induction e as [ | | | p k | sg | sg | e c IH | es IH | q e IH | a b e IH | a b e IH | sg l | e m sh IH | sg a b ] using event_ind';
      intros dc s n; cbn [pld_mc]; try discriminate.
    - destruct dc; discriminate.
    - destruct (relation_eqb _ _); [discriminate|]. destruct dc; [|discriminate]. destruct (k =? 1)%Z; [discriminate|].
      destruct (xeqb _ _); [discriminate|]. apply pld_charge_clean. destruct (nval p); try discriminate. apply clean_from_rr.
    - destruct dc; [|discriminate]. destruct (xeqb _ _); [discriminate|]. destruct (n <? 0)%Z; [discriminate|]. destruct (n =? 0)%Z; [discriminate|].
      apply pld_charge_clean, HG.
    - destruct dc; [|discriminate]. destruct (xeqb _ _); [discriminate|]. apply pld_charge_clean, clean_self, HL.
    - apply IH.
    - change (snd (mc dc s (Composed es) n) <> Raise UnsupportedEventError). rewrite pld_composed.
      rewrite Forall_forall in IH. apply seq_mc_not; [discriminate|]. intros; apply IH; assumption.
    - destruct (relation_eqb _ _); [discriminate|]. destruct e; try discriminate; (destruct dc; [|discriminate]);
        (destruct (xeqb (nval q) _); [discriminate|]; destruct (xeqb _ _); [discriminate | apply pld_charge_clean, clean_self]); [apply HG | apply HL].
    - destruct dc; [|discriminate]. destruct (match a with [x] => xeqb (nval x) (Fin 0) | _ => false end); [discriminate|].
      destruct (xeqb _ _); [discriminate | apply pld_charge_clean, clean_self, HM].
  Qed.

  (** The flag of non-private releases. *)
  Lemma pld_charge_flag s o : non_dp (fst (pld_charge tail s o)) = non_dp s.
  Proof. unfold pld_charge. destruct (bind o _); reflexivity. Qed.
  Lemma seq_mc_keep {S} (P : S -> Prop) (f : S -> event num -> S * mc_out) l : (forall e s, In e l -> P s -> P (fst (f s e))) ->
    forall s, P s -> P (fst (seq_mc f l s)).
  Proof.
    induction l as [|a l IH]; intros H s Ps; cbn [seq_mc]; [exact Ps|].
    pose proof (H a s (or_introl eq_refl) Ps) as X. destruct (f s a) as [s1 r]. cbn [fst] in X.
    destruct r; try exact X. apply IH; [intros; apply H; [right|]; assumption | exact X].
  Qed.
  Lemma flag_kept dc e : forall s n, non_dp s = true -> non_dp (fst (mc dc s e n)) = true.
  Proof.
    induction e as [ | | | p k | sg | sg | e c IH | es IH | q e IH | a b e IH | a b e IH | sg l | e m sh IH | sg a b ] using event_ind';
      intros s n H; cbn [pld_mc]; try exact H.
    - destruct dc; [reflexivity | exact H].
    - destruct (relation_eqb _ _); [exact H|]. destruct dc; [|exact H]. destruct (k =? 1)%Z; [exact H|]. destruct (xeqb _ _); [reflexivity|].
      rewrite pld_charge_flag. exact H.
    - destruct dc; [|exact H]. destruct (xeqb _ _); [reflexivity|]. destruct (n <? 0)%Z; [exact H|]. destruct (n =? 0)%Z; [exact H|].
      rewrite pld_charge_flag. exact H.
    - destruct dc; [|exact H]. destruct (xeqb _ _); [reflexivity|]. rewrite pld_charge_flag. exact H.
    - apply IH, H.
    - change (non_dp (fst (mc dc s (Composed es) n)) = true). rewrite pld_composed. rewrite Forall_forall in IH.
      apply seq_mc_keep; [|exact H]. intros; apply IH; assumption.
    - destruct (relation_eqb _ _); [exact H|]. destruct e; try exact H; (destruct dc; [|exact H]);
        (destruct (xeqb (nval q) _); [exact H|]; destruct (xeqb _ _); [reflexivity | rewrite pld_charge_flag; exact H]).
    - destruct dc; [|exact H]. destruct (match a with [x] => xeqb (nval x) (Fin 0) | _ => false end); [exact H|].
      destruct (xeqb _ _); [reflexivity | rewrite pld_charge_flag; exact H].
  Qed.
  Lemma seq_mc_in {S} (P : S -> Prop) (f : S -> event num -> S * mc_out) x l :
    (forall e s, In e l -> P s -> P (fst (f s e))) -> (forall s, snd (f s x) = Fine -> P (fst (f s x))) -> In x l ->
    forall s, snd (seq_mc f l s) = Fine -> P (fst (seq_mc f l s)).
  Proof.
    induction l as [|a l IH]; intros K H I s F; [destruct I|]. cbn [seq_mc] in *.
    destruct (f s a) as [s1 r] eqn:E. destruct r; cbn [snd] in F; try discriminate.
    destruct I as [->|I].
    - apply seq_mc_keep; [intros; apply K; [right|]; assumption|]. specialize (H s). rewrite E in H. apply H. reflexivity.
    - apply IH; try assumption. intros; apply K; [right|]; assumption.
  Qed.
  Lemma flag_set e : forall s n, (exists a, In a (atoms e) /\ not_private a) -> snd (mc true s e n) = Fine -> non_dp (fst (mc true s e n)) = true.
  Proof.
    induction e as [ | | | p k | sg | sg | e c IH | es IH | q e IH | a b e IH | a b e IH | sg l | e m sh IH | sg a b ] using event_ind';
      intros s n (x & I & Np) F;
      try (exfalso; destruct I as [<-|[]]; destruct Np as [Np|(z & Np & _)]; discriminate); try discriminate.
    - destruct I.
    - reflexivity.
    - destruct I as [<-|[]]. destruct Np as [Np|(z & Np & E)]; [discriminate|]. injection Np as <-. cbn [pld_mc]. rewrite E. cbn [xeqb].
      rewrite Reqb_true by reflexivity. reflexivity.
    - cbn [pld_mc] in *. apply IH; [|exact F]. cbn [atoms] in I. exists x. split; [|exact Np].
      clear - I. induction (Z.to_nat c) as [|m IH]; [destruct I|]. cbn [copies] in I. rewrite in_app_iff in I. destruct I as [I|I]; [exact I | exact (IH I)].
    - cbn [atoms] in I. apply in_flat_map in I. destruct I as (y & Iy & Ix). rewrite Forall_forall in IH. rewrite pld_composed in *.
      apply (seq_mc_in (fun s => non_dp s = true) _ y); [intros; apply flag_kept; assumption | | exact Iy | exact F].
      intros s' F'. apply IH; [exact Iy | exists x; split; assumption | exact F'].
  Qed.
  Lemma step_flag A c : non_dp (acc_state A) = true -> non_dp (acc_state (acc_step mc A c)) = true.
  Proof.
    intros H. destruct c as [[e|] n|e|]; cbn [acc_step].
    - cbn [acc_compose]. rewrite pld_dry_pure. destruct (pld_dry e); try exact H. destruct (builder_compose _ _ _) as [b [u|x]]; [|exact H].
      pose proof (flag_kept true e (acc_state A) n H) as K. destruct (mc true (acc_state A) e n). exact K.
    - exact H.
    - rewrite (supports_pure mc pld_dry pld_dry_pure). exact H.
    - unfold acc_get_ledger. destruct (builder_build (acc_ledger A)). exact H.
  Qed.
  Lemma pld_never_forgotten (A A' : accountant pld_state) e n cs : acc_compose mc A (EventObj e) n = (A', Ok tt) ->
    (exists a, In a (atoms e) /\ not_private a) ->
    (forall delta, pldacc_epsilon (acc_state (acc_run mc A' cs)) delta = Ok PInf) /\
    (forall eps, pldacc_delta (acc_state (acc_run mc A' cs)) eps = 1).
  Proof.
    intros C X. apply (compose_Ok mc pld_dry pld_dry_pure pld_fine_unsup) in C. destruct C as (_ & b & _ & _ & M).
    pose proof (flag_set e (acc_state A) n X) as K. rewrite M in K. specialize (K eq_refl). cbn [fst] in K.
    assert (F : non_dp (acc_state (acc_run mc A' cs)) = true).
    { revert A' M K. induction cs as [|c cs IH]; intros A' M K; [exact K|].
      enough (G : forall A1, non_dp (acc_state A1) = true -> non_dp (acc_state (acc_run mc A1 cs)) = true) by (apply G, step_flag, K).
      clear. induction cs as [|c cs IH]; intros A1 H; [exact H | apply IH, step_flag, H]. }
    unfold pldacc_epsilon, pldacc_delta. rewrite F. split; reflexivity.
  Qed.
End Pld.
