(** The PLD accountant bounds the adaptive interaction its ledger describes. *)
From Verif Require Import Base XReal Exn PyDict TypesEvent TypesRelation SpecEvent ModelBuilder ProofBuilder ModelCommon ModelPmf ModelPld
  SpecDP SpecPmf SpecPld ProofDP ProofDict ProofPmf ProofCompose ProofCompose2 ProofQuery ProofPld ProofSelf ProofSelfDP
  ModelMake SpecMake ProofRR ModelRdp SpecRenyi SpecRdp ProofConv ProofCharge
  ModelAccountant SpecAccountant SpecAccPld ProofAccGen ProofAccRdp ProofAccAdd ProofAccPld.
Local Arguments Rltb : simpl never.
Local Arguments Rleb : simpl never.
Local Arguments Reqb : simpl never.

(** ** Splitting an interaction *)
Definition iso (E F : exper) : Prop := exists g : outcome F -> outcome E,
  outs E = map g (outs F) /\ (forall b, prP E (g b) = prP F b) /\ (forall b, prQ E (g b) = prQ F b).

Lemma map_flat_map {A B C} (f : B -> C) (g : A -> list B) l : map f (flat_map g l) = flat_map (fun a => map f (g a)) l.
Proof. induction l as [|a l IH]; [reflexivity|]. cbn [flat_map]. rewrite map_app, IH. reflexivity. Qed.
Lemma flat_map_map {A B C} (f : A -> B) (g : B -> list C) l : flat_map g (map f l) = flat_map (fun a => g (f a)) l.
Proof. induction l as [|a l IH]; [reflexivity|]. cbn [flat_map map]. rewrite IH. reflexivity. Qed.
Lemma flat_map_flat_map {A B C} (f : A -> list B) (g : B -> list C) l : flat_map g (flat_map f l) = flat_map (fun a => flat_map g (f a)) l.
Proof. induction l as [|a l IH]; [reflexivity|]. cbn [flat_map]. rewrite flat_map_app, IH. reflexivity. Qed.

Lemma interaction_split Cs Ds E : interaction (Cs ++ Ds) E ->
  exists E0 (E1 : outcome E0 -> exper), interaction Cs E0 /\ (forall a, In a (outs E0) -> interaction Ds (E1 a)) /\ iso E (seq_exper E0 E1).
Proof.
  revert E. induction Ds as [|C Ds IH] using rev_ind; intros E H.
  - rewrite app_nil_r in H. exists E, (fun _ => silent). split; [exact H|]. split; [intros; constructor|].
    exists (fun ab => projT1 ab). split; [|split; intros [a []]; cbn; lra].
    cbn [seq_exper outs]. rewrite map_flat_map. cbn. induction (outs E) as [|a l IHl]; [reflexivity|]. cbn. f_equal. exact IHl.
  - rewrite app_assoc in H. inversion H as [K|Cs' E' C' Ec HI HC K]; [destruct Cs, Ds; discriminate|].
    apply app_inj_tail in K. destruct K as [-> ->]. destruct (IH _ HI) as (E0 & E1 & J0 & J1 & g & G1 & G2 & G3).
    exists E0, (fun a => seq_exper (E1 a) (fun b => Ec (g (existT _ a b)))). split; [exact J0|]. split.
    + intros a Ia. constructor; [apply J1, Ia|]. intros b Ib. apply HC. rewrite G1. apply in_map. cbn [seq_exper outs].
      apply in_flat_map. exists a. split; [exact Ia | apply in_map, Ib].
    + exists (fun abc : outcome (seq_exper E0 (fun a => seq_exper (E1 a) (fun b => Ec (g (existT _ a b))))) =>
        existT (fun x => outcome (Ec x)) (g (existT _ (projT1 abc) (projT1 (projT2 abc)))) (projT2 (projT2 abc))).
      split; [|split].
      * cbn [seq_exper outs] in *. rewrite G1, flat_map_map, flat_map_flat_map, map_flat_map. apply flat_map_ext. intros a.
        rewrite flat_map_map, map_map, map_flat_map. apply flat_map_ext. intros b. rewrite map_map. reflexivity.
      * intros [a [b c]]. cbn. rewrite G2. cbn. lra.
      * intros [a [b c]]. cbn. rewrite G3. cbn. lra.
Qed.

Lemma rsum_map_eq {A B} (f : A -> R) (g : B -> A) l : rsum f (map g l) = rsum (fun b => f (g b)) l.
Proof. induction l as [|b l IH]; [reflexivity|]. cbn. rewrite IH. reflexivity. Qed.
Lemma filter_map {A B} (S : A -> bool) (g : B -> A) l : filter S (map g l) = map g (filter (fun b => S (g b)) l).
Proof. induction l as [|b l IH]; [reflexivity|]. cbn. destruct (S (g b)); cbn; rewrite IH; reflexivity. Qed.
Lemma iso_swap E F : iso E F -> iso (swap E) (swap F).
Proof. intros (g & G1 & G2 & G3). exists g. split; [exact G1 | split; assumption]. Qed.
Lemma iso_valid E F : iso E F -> valid F -> valid E.
Proof.
  intros (g & G1 & G2 & G3) (V1 & V2 & V3). split; [|split].
  - intros a Ha. rewrite G1 in Ha. apply in_map_iff in Ha. destruct Ha as (b & <- & Hb). rewrite G2, G3. apply V1, Hb.
  - rewrite G1, rsum_map_eq, <- V2. apply rsum_ext. intros; apply G2.
  - rewrite G1, rsum_map_eq, <- V3. apply rsum_ext. intros; apply G3.
Qed.
Lemma iso_bounds d E F : iso E F -> profile_bounds d F -> profile_bounds d E.
Proof.
  intros (g & G1 & G2 & G3) H eps S. unfold ProbP, ProbQ. rewrite G1, filter_map, !rsum_map_eq.
  rewrite (rsum_ext (fun b => prP E (g b)) (prP F)) by (intros; apply G2).
  rewrite (rsum_ext (fun b => prQ E (g b)) (prQ F)) by (intros; apply G3). apply (H eps (fun b => S (g b))).
Qed.
Lemma iso_pld D E F : iso E F -> pld_bounds D F -> pld_bounds D E.
Proof.
  intros I (V & B1 & B2). split; [eapply iso_valid; eassumption|]. split; [eapply iso_bounds; eassumption|].
  eapply iso_bounds; [apply iso_swap; exact I | exact B2].
Qed.

Lemma no_leak_step d E E' : (forall a, In a (outs E) -> no_leak (E' a)) -> profile_bounds d E -> profile_bounds d (seq_exper E E').
Proof.
  intros N H eps. specialize (H eps). apply dp_iff_hockey in H. apply dp_iff_hockey. eapply Rle_trans; [|exact H]. right.
  unfold hockey_stick. cbn [seq_exper outs prP prQ]. clear H.
  induction (outs E) as [|a l IH]; [reflexivity|]. cbn [flat_map]. rewrite rsum_app. cbn [rsum].
  rewrite IH by (intros; apply N; right; assumption). f_equal.
  rewrite rsum_map_eq. cbn [projT1 projT2].
  destruct (N a (or_introl eq_refl)) as [(V1 & V2 & _) EQ].
  rewrite (rsum_ext _ (fun b => pos (prP E a - exp eps * prQ E a) * prP (E' a) b)).
  - rewrite rsum_scal, V2. lra.
  - intros b Hb. rewrite <- (EQ b Hb). destruct (V1 b Hb) as [P0 _]. rewrite (Rmult_comm (pos _)), <- pos_scal by exact P0. f_equal. lra.
Qed.
Lemma no_leak_swap E : no_leak E -> no_leak (swap E).
Proof. intros [V H]. split; [apply valid_swap, V|]. intros a Ha. symmetry. apply H, Ha. Qed.
Lemma no_leak_pld D E E' : (forall a, In a (outs E) -> no_leak (E' a)) -> pld_bounds D E -> pld_bounds D (seq_exper E E').
Proof.
  intros N (V & B1 & B2). split; [apply valid_seq; [exact V | intros a Ha; apply (N a Ha)]|].
  split; [apply no_leak_step; assumption|]. rewrite swap_seq. apply no_leak_step; [|exact B2]. intros a Ha. apply no_leak_swap, N, Ha.
Qed.

(** ** Self-composed charges *)
Lemma self_pld_sound fast_len D n tail r : (forall k, (k <= fast_len k)%nat) -> sound_pld D -> 0 <= tail ->
  2 * tail <= (1 - infinity_mass (pmf_remove D)) ^ Z.to_nat n -> 2 * tail <= (1 - infinity_mass (pmf_add D)) ^ Z.to_nat n ->
  pld_self_compose fast_len D n tail = Ok r ->
  sound_pld r /\ forall E, interaction (repeat (pld_bounds D) (Z.to_nat n)) E -> pld_bounds r E.
Proof.
  intros Hf HS Ht T1 T2 H. pose proof HS as ((W1 & I1 & P1) & (W2 & I2 & P2) & S).
  destruct (pld_self_inv _ _ _ _ _ H S) as (C1 & C2 & SR).
  pose proof (self_compose_ok _ _ _ _ _ Hf W1 I1 Ht C1) as K1.
  pose proof (self_compose_ok _ _ _ _ _ Hf W2 I2 Ht C2) as K2.
  assert (L : forall p n r, pessimistic_estimate p = true -> self_ok p n tail r -> 2 * tail <= (1 - infinity_mass p) ^ n -> infinity_mass r <= 1).
  { intros p m r' P K T. assert (M0 : mono (fun _ => 0)) by (unfold mono; intros; lra).
    destruct (so_up _ _ _ _ K P (fun _ => 0) 1 M0 ltac:(intros; lra)) as [_ U]. unfold ptest in U.
    assert (PZ : forall q, psum q (fun _ => 0) = 0).
    { intros q. rewrite (psum_ext q _ (fun k => 0 * 0)) by (intros; lra). rewrite psum_scal. lra. }
    assert (Z1 : pown p m (fun _ => 0) = 0).
    { clear - PZ. induction m as [|m IH]; [reflexivity|]. cbn [pown]. rewrite (psum_ext p _ (fun _ => 0)) by (intros; exact IH). apply PZ. }
    rewrite PZ, Z1 in U. lra. }
  split.
  - split; [|split; [|assumption]].
    + split; [apply (so_wf _ _ _ _ K1)|]. split; [exact (L _ _ _ P1 K1 T1) | rewrite (so_pess _ _ _ _ K1); assumption].
    + split; [apply (so_wf _ _ _ _ K2)|]. split; [exact (L _ _ _ P2 K2 T2) | rewrite (so_pess _ _ _ _ K2); assumption].
  - intros E HE.
    destruct (interaction_repeat _ E HE D _ HS eq_refl) as (V & r' & a' & R1 & _ & A1 & _ & B1 & B2).
    split; [assumption|]. split; intros eps T.
    + eapply Rle_trans; [apply (B1 eps T)|]. apply Rplus_le_compat_l.
      apply (self_above _ _ _ _ _ _ eps Hf W1 I1 P1 Ht C1 R1).
    + eapply Rle_trans; [apply (B2 eps T)|]. apply Rplus_le_compat_l.
      apply (self_above _ _ _ _ _ _ eps Hf W2 I2 P2 Ht C2 A1).
Qed.

Lemma interaction_le Cs E : interaction Cs E -> forall Ds, Forall2 (fun (C D : exper -> Prop) => forall F, C F -> D F) Cs Ds -> interaction Ds E.
Proof.
  induction 1 as [|Cs E C E' HI IH HC]; intros Ds F.
  - inversion F. constructor.
  - apply Forall2_app_inv_l in F. destruct F as (D1 & D2 & F1 & F2 & ->). inversion F2 as [|? D ? D2' G F3]; subst. inversion F3; subst.
    constructor; [apply IH, F1|]. intros a Ha. apply G, HC, Ha.
Qed.
Lemma repeat_le (C D : exper -> Prop) n : (forall F, C F -> D F) -> Forall2 (fun (C D : exper -> Prop) => forall F, C F -> D F) (repeat C n) (repeat D n).
Proof. intros H. induction n; constructor; assumption. Qed.

Lemma interaction_one (C : exper -> Prop) E : interaction [C] E -> exists F, C F /\ iso E F.
Proof.
  intros H. remember [C] as L eqn:EL. destruct H as [|Cs' E' C' Ec HI HC]; [discriminate|]. apply (app_inj_tail Cs' [] C' C) in EL. destruct EL as [-> ->].
  inversion HI as [K2|Cs2 ? ? ? ? ? K2]; subst; [|destruct Cs2; discriminate].
  exists (Ec tt). split; [apply HC; left; reflexivity|]. exists (fun b => existT _ tt b). split; [|split; intros b; cbn; lra].
  cbn. apply app_nil_r.
Qed.

(** ** The accountant *)
Section Sound.
  Context (gaussian_pld laplace_pld : xr -> xr -> res pld)
          (mixture_pld : xr -> list xr -> list xr -> res pld)
          (fast_len : nat -> nat) (rel : relation) (disc tail : R) (mech : event num -> exper -> Prop).
  Hypothesis Hf : forall k, (k <= fast_len k)%nat.
  Hypothesis Ht : 0 <= tail.
  Hypothesis Hd : 0 < disc.
  Notation mc := (pld_mc gaussian_pld laplace_pld mixture_pld fast_len rel disc tail).
  Notation run_sound := (run_sound gaussian_pld laplace_pld mixture_pld rel tail mech).
  Notation classes := (run_classes mech).

  Definition St (Cs : list (exper -> Prop)) (s : pld_state) : Prop :=
    non_dp s = true \/ (wide_pld (cur_pld s) /\ forall E, interaction Cs E -> pld_bounds (cur_pld s) E).

  Lemma St_flag Cs s : St Cs (flag s).
  Proof. left. reflexivity. Qed.
  Lemma St_block Cs Bs s o s' : St Cs s -> (forall D, o = Ok D -> sound_pld D /\ forall E, interaction Bs E -> pld_bounds D E) ->
    pld_charge tail s o = (s', Fine) -> St (Cs ++ Bs) s'.
  Proof.
    intros [F|[W B]] H C; unfold pld_charge in C; destruct o as [D|]; cbn [bind] in C; try discriminate;
      destruct (pld_compose (cur_pld s) D tail) as [r|] eqn:Ec; try discriminate; injection C as <-.
    - left. exact F.
    - right. cbn [cur_pld]. destruct (H D eq_refl) as [HS HB].
      assert (Wr : wide_pld r).
      { destruct W as ((W1 & P1) & (W2 & P2) & S). destruct HS as ((W1' & I1' & P1') & (W2' & I2' & P2') & S').
        destruct (pld_compose_inv _ _ _ _ Ec S S') as (C1 & C2 & SR).
        apply compose_pmfs_ok in C1; [|assumption..]. apply compose_pmfs_ok in C2; [|assumption..].
        split; [|split; [|assumption]].
        - split; [exact (compose_wf _ _ _ _ W1 W1' (or_intror I1') C1)|]. rewrite (co_rpess _ _ _ _ C1); assumption.
        - split; [exact (compose_wf _ _ _ _ W2 W2' (or_intror I2') C2)|]. rewrite (co_rpess _ _ _ _ C2); assumption. }
      split; [exact Wr|]. intros E HE. destruct (interaction_split _ _ _ HE) as (E0 & E1 & H0 & H1 & Iso).
      eapply iso_pld; [exact Iso|]. apply (pld_compose_step _ _ _ _ E0 E1 W HS Ec (B E0 H0)). intros a Ha. apply HB, H1, Ha.
  Qed.
  Lemma St_silent Cs (C : exper -> Prop) n s : St Cs s -> (forall E, C E -> no_leak E) -> St (Cs ++ repeat C n) s.
  Proof.
    intros [F|[W B]] H; [left; exact F | right]. split; [exact W|]. induction n as [|n IH]; intros E HE.
    - cbn [repeat] in HE. rewrite app_nil_r in HE. apply B, HE.
    - change (repeat C (S n)) with (C :: repeat C n) in HE. rewrite repeat_cons, app_assoc in HE.
      inversion HE as [K|Cs' E' C' Ec HI HC K]; [destruct Cs, (repeat C n); discriminate|].
      apply app_inj_tail in K. destruct K as [-> ->]. apply no_leak_pld; [intros a Ha; apply H, HC, Ha | apply IH, HI].
  Qed.
  Lemma self_block D n (C : exper -> Prop) : bounds_class tail n D C ->
    forall r, self_composed fast_len tail D n = Ok r -> sound_pld r /\ forall E, interaction (repeat C (Z.to_nat n)) E -> pld_bounds r E.
  Proof.
    intros H r Er. unfold self_composed in Er. destruct D as [D|]; [|discriminate]. cbn [bind] in Er.
    destruct (H D eq_refl) as (S & B & T1 & T2). destruct (self_pld_sound _ _ _ _ _ Hf S Ht T1 T2 Er) as [Sr Br].
    split; [exact Sr|]. intros E HE. apply Br. eapply interaction_le; [exact HE | apply repeat_le, B].
  Qed.

  Lemma xeqb_0 x : xeqb x (Fin 0) = true -> x = Fin 0.
  Proof. destruct x as [x| | |]; cbn; try discriminate. intros H. f_equal. destruct (Reqb_spec x 0); [assumption | discriminate]. Qed.
  Lemma rr_one x E : rr_pair rel x 1 E -> no_leak E.
  Proof.
    unfold rr_pair. destruct rel.
    - contradiction.
    - intros (a & b & Ha & Hb & N & _). unfold buckets in *. cbn in *. destruct Ha as [<-|[]], Hb as [<-|[]]. congruence.
    - intros (a & Ha & ->). unfold buckets in *. cbn in Ha. destruct Ha as [<-|[]].
      unfold no_leak, valid, rr_special, rr_prob, buckets. cbn [outs prP prQ]. change (map Z.of_nat (seq 0 (Z.to_nat 1))) with [0%Z]. cbn [rsum].
      change (Z.of_nat 0) with 0%Z. change (0 =? 0)%Z with true. cbn iota. split; [split; [|split; lra]|]; intros a [<-|[]]; change (0 =? 0)%Z with true; cbn iota; lra.
  Qed.

  Lemma atom_bounds e n s s' Cs : atom e -> (1 <= n)%Z -> run_sound (e, n) -> mc true s e n = (s', Fine) -> St Cs s ->
    St (Cs ++ repeat (mech e) (Z.to_nat n)) s'.
  Proof.
    intros A N R M I. destruct e as [ | | | p k | noise_multiplier | noise_multiplier | e c | es | sampling_probability e | a b e | a b e | sg l | e m sh | standard_deviation sensitivities probs ]; cbn [pld_mc atom SpecAccPld.run_sound] in *; try contradiction; try discriminate.
    - injection M as <-. apply St_flag.
    - destruct (relation_eqb rel ADD_OR_REMOVE_ONE); [discriminate|]. destruct R as [-> R]. change (Z.to_nat 1) with 1%nat.
      destruct (Z.eqb_spec k 1) as [->|].
      + injection M as <-. apply St_silent; [exact I|]. intros E HE. destruct (R E HE) as (x & _ & Hx). eapply rr_one; exact Hx.
      + destruct (xeqb (nval p) (Fin 0)); [injection M as <-; apply St_flag|].
        eapply St_block; [exact I | | exact M]. intros D HD. destruct (nval p) as [x| | |] eqn:Ep; try discriminate.
        destruct (rr_inv _ _ _ _ _ _ HD) as (Hp & Hk & Hr & _).
        assert (SP : sound_pld D).
        { destruct rel; [congruence| |].
          - apply (rr_pessimistic x k disc REPLACE_ONE D (rr_exper x k 0 1) Hd HD).
            exists 0%Z, 1%Z. repeat split; try (apply buckets_In; lia). discriminate.
          - apply (rr_pessimistic x k disc REPLACE_SPECIAL D (rr_special x k 0) Hd HD).
            exists 0%Z. split; [apply buckets_In; lia | reflexivity]. }
        split; [exact SP|]. intros E HE.
        destruct (interaction_one _ _ HE) as (F & HF & Iso). eapply iso_pld; [exact Iso|].
        destruct (R F HF) as (y & Ey & HP). injection Ey as <-. apply (rr_pessimistic x k disc rel D F Hd HD HP).
    - destruct (xeqb (nval noise_multiplier) (Fin 0)); [injection M as <-; apply St_flag|].
      destruct (Z.ltb_spec n 0); [discriminate|]. destruct (Z.eqb_spec n 0); [discriminate|].
      eapply St_block; [exact I | exact R | exact M].
    - destruct (xeqb (nval noise_multiplier) (Fin 0)); [injection M as <-; apply St_flag|].
      eapply St_block; [exact I | apply self_block, R | exact M].
    - destruct (relation_eqb rel REPLACE_ONE); [discriminate|].
      destruct e; try discriminate; destruct R as [R1 R2];
        (destruct (xeqb (nval sampling_probability) (Fin 0)) eqn:Q;
         [injection M as <-; apply St_silent; [exact I | apply R1, xeqb_0, Q]|]);
        (destruct (xeqb (nval noise_multiplier) (Fin 0)); [injection M as <-; apply St_flag|]);
        (eapply St_block; [exact I | apply self_block, R2 | exact M]).
    - destruct R as [R1 R2].
      destruct (match sensitivities with [x] => xeqb (nval x) (Fin 0) | _ => false end) eqn:Q.
      { destruct sensitivities as [|x [|y l]]; try discriminate. injection M as <-. apply St_silent; [exact I | apply R1, xeqb_0, Q]. }
      destruct (xeqb (nval standard_deviation) (Fin 0)); [injection M as <-; apply St_flag|].
      eapply St_block; [exact I | apply self_block, R2 | exact M].
  Qed.

  Lemma runs_of_atom e n : atom e -> runs_of e n = [(e, n)].
  Proof. destruct e; cbn; tauto. Qed.
  Lemma classes_one e n : classes [(e, n)] = repeat (mech e) (Z.to_nat n).
  Proof. unfold run_classes. cbn [flat_map fst snd]. apply app_nil_r. Qed.
  Lemma classes_app l1 l2 : classes (l1 ++ l2) = classes l1 ++ classes l2.
  Proof. apply flat_map_app. Qed.

  Lemma event_bounds : forall e n s s' Cs, pos_counts e -> (1 <= n)%Z -> Forall run_sound (runs_of e n) -> mc true s e n = (s', Fine) -> St Cs s ->
    St (Cs ++ classes (runs_of e n)) s'.
  Proof.
    assert (At : forall e n s s' Cs, atom e -> (1 <= n)%Z -> Forall run_sound (runs_of e n) -> mc true s e n = (s', Fine) -> St Cs s ->
      St (Cs ++ classes (runs_of e n)) s').
    { intros e n s s' Cs A N R M I. rewrite runs_of_atom, classes_one by exact A. rewrite runs_of_atom in R by exact A.
      inversion_clear R as [|? ? R1 _]. eapply atom_bounds; eassumption. }
    induction e as [ | | | p k | sg | sg | e c IH | es IH | q e IH | a b e IH | a b e IH | sg l | e m sh IH | sg a b ] using event_ind';
      intros n s s' Cs P N R M I; try (match goal with |- St (_ ++ classes (runs_of ?x n)) s' => apply (At x n s s' Cs Logic.I N R M I) end).
    - cbn [pld_mc] in M. injection M as <-. cbn. rewrite app_nil_r. exact I.
    - cbn [pld_mc runs_of] in *. destruct P as [P1 P2]. eapply (IH (c * n)%Z); [exact P2 | nia | exact R | exact M | exact I].
    - rewrite pld_composed in M. cbn [runs_of] in *. clear At. revert s Cs M I. induction IH as [|x l Hx _ IH2]; intros s Cs M I.
      + cbn in *. injection M as <-. rewrite app_nil_r. exact I.
      + cbn [pos_counts] in P. destruct P as [P1 P2]. cbn [flat_map] in *. apply Forall_app in R. destruct R as [R1 R2].
        cbn [seq_mc] in M. destruct (mc true s x n) as [s1 [| |y]] eqn:M1; try discriminate.
        rewrite classes_app, app_assoc. eapply IH2; [exact P2 | exact R2 | exact M | eapply Hx; eassumption].
  Qed.

  Lemma runs_bounds A h A' Cs : runs mc A h A' -> pos_history h -> Forall run_sound (history_runs h) -> St Cs (acc_state A) ->
    St (Cs ++ classes (history_runs h)) (acc_state A').
  Proof.
    intros H. revert Cs. induction H as [A|A e n A1 h A' C H IH]; intros Cs P R I.
    - cbn. rewrite app_nil_r. exact I.
    - inversion_clear P as [|? ? [Pn Pe] P']. cbn [fst snd] in *.
      apply (compose_Ok mc (pld_dry gaussian_pld laplace_pld mixture_pld fast_len rel disc tail)
        (pld_dry_pure gaussian_pld laplace_pld mixture_pld fast_len rel disc tail)
        (pld_fine_unsup gaussian_pld laplace_pld mixture_pld fast_len rel disc tail)) in C.
      destruct C as (_ & b & _ & _ & M). unfold history_runs in *. cbn [flat_map fst snd] in *. apply Forall_app in R. destruct R as [R1 R2].
      rewrite classes_app, app_assoc. apply IH; [exact P' | exact R2|]. eapply event_bounds; eassumption.
  Qed.

  Lemma interaction_valid Cs E : interaction Cs E -> (forall C F, In C Cs -> C F -> valid F) -> valid E.
  Proof.
    induction 1 as [|Cs E C E' HI IH HC]; intros V; [apply valid_silent|].
    apply valid_seq; [apply IH; intros C' F J; apply V, in_or_app; left; exact J|].
    intros a Ha. apply (V C); [apply in_or_app; right; left; reflexivity | apply HC, Ha].
  Qed.
  Lemma dp_one E eps : valid E -> dp_both E eps 1.
  Proof.
    intros V. assert (K : forall F, valid F -> dp F eps 1).
    { clear. intros F V. apply dp_iff_hockey. pose proof (hs_le1 F eps V). lra. }
    split; apply K; [exact V | apply valid_swap, V].
  Qed.

  (** C10, soundness of counts. *)
  Lemma pld_accountant_sound A0 h A E : pld_new disc = Ok A0 -> runs mc A0 h A -> pos_history h ->
    Forall run_sound (history_runs h) -> (forall a F, mech a F -> valid F) ->
    interaction (classes (history_runs h)) E ->
    (forall eps, dp_both E eps (pldacc_delta (acc_state A) (Fin eps))) /\
    (forall delta e, pldacc_epsilon (acc_state A) delta = Ok (Fin e) -> dp_both E e delta).
  Proof.
    intros N H P R V HE. unfold pld_new in N. destruct (identity disc) as [D|] eqn:Ei; [|discriminate]. injection N as <-.
    assert (S0 : St [] (mkPldState false D)).
    { right. cbn [cur_pld]. split; [apply sound_wide, (identity_sound disc); assumption|].
      intros F HF. inversion HF as [K|Cs ? ? ? ? ? K]; [apply (identity_bounds disc); assumption | destruct Cs; discriminate]. }
    pose proof (runs_bounds _ _ _ [] H P R S0) as [F|[W B]]; unfold pldacc_delta, pldacc_epsilon.
    - rewrite F. split; [|discriminate]. intros eps. apply dp_one. eapply interaction_valid; [exact HE|].
      intros C G J HC. unfold run_classes in J. apply in_flat_map in J. destruct J as (r & _ & J). apply repeat_spec in J. subst C. eapply V; exact HC.
    - cbn [app] in B. specialize (B E HE). destruct (non_dp (acc_state A)) eqn:Fl.
      + split; [|discriminate]. intros eps. apply dp_one, B.
      + split; [intros; apply wide_delta_sound; assumption | intros delta e He; eapply wide_epsilon_sound; eassumption].
  Qed.
End Sound.
