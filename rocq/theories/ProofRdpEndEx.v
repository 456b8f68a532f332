(** Instances of the end-to-end theorem of the RDP accountant. *)
From Coq Require Import Permutation FunctionalExtensionality.
From Verif Require Import Base XReal Exn TypesEvent TypesRelation SpecEvent SpecDP SpecMake SpecMech SpecRenyi SpecRdp SpecNoiseAcc SpecAccPld SpecAccountant SpecSelect SpecWor SpecRdpEvent.
From Verif Require Import ModelBuilder ProofBuilder ModelRdp ModelAccountant ProofDP ProofAccGen ProofAccRdp ProofAccAdd ProofRdpEnd ProofRdpAtom ProofShapeInt ProofSelectLaw ProofSelectEx.
Local Arguments Rltb : simpl never.
Local Arguments Rleb : simpl never.
Local Arguments Reqb : simpl never.

Lemma interaction_exists (Cs : list (exper -> Prop)) : Forall (fun C : exper -> Prop => exists E, C E) Cs -> exists E, interaction Cs E.
Proof.
  induction Cs as [|C Cs IH] using rev_ind; intros F; [exists silent; constructor|].
  apply Forall_app in F. destruct F as [F1 F2]. inversion_clear F2 as [|? ? [G HG] _]. destruct (IH F1) as [E HE].
  exists (seq_exper E (fun _ => G)). constructor; [exact HE | intros; exact HG].
Qed.
Lemma query_exists F : exists E, scaled_query F 1 E.
Proof.
  eexists. exists 1. split; [lra|]. exists 0, 1, [0; 1]. split; [exact Logic.I|]. split; [exact Logic.I|]. split; [rewrite Rabs_R1; lra|].
  split; [|reflexivity]. repeat constructor; lra.
Qed.

Definition sampled_pair : event num := PoissonSampled (PyFloat (1/2)) (Composed [Gaussian (PyFloat 1); Gaussian (PyFloat 2)]).
Definition mixed_history : list (event num * Z) :=
  [(Gaussian (PyFloat 1), 2%Z); (SelfComposed (Composed [Laplace (PyFloat 2); sampled_pair]) 3, 4%Z)].
Definition tree_history : list (event num * Z) :=
  [(TreeAggregation (PyFloat 1) (Trees [5; 8]%Z), 1%Z); (RandResp (PyFloat (1/2)) 3, 2%Z)].

Lemma in_copies {A} (P : A -> Prop) l n : Forall P l -> Forall P (copies n l).
Proof. intros H. induction n as [|n IH]; [constructor|]. apply Forall_app. split; assumption. Qed.

Lemma mixed_atoms (P : event num -> Prop) : P (Gaussian (PyFloat 1)) -> P (Laplace (PyFloat 2)) -> P sampled_pair -> Forall P (history_atoms mixed_history).
Proof.
  intros H1 H2 H3. unfold mixed_history. cbn [history_atoms flat_map]. apply Forall_app. split; [apply in_copies; repeat constructor; assumption|].
  rewrite app_nil_r. apply in_copies. cbn [atoms flat_map]. apply in_copies. repeat constructor; assumption.
Qed.
Lemma tree_atoms (P : event num -> Prop) : P (TreeAggregation (PyFloat 1) (Trees [5; 8]%Z)) -> P (RandResp (PyFloat (1/2)) 3) -> Forall P (history_atoms tree_history).
Proof.
  intros H1 H2. unfold tree_history. cbn [history_atoms flat_map]. apply Forall_app. split; [apply in_copies; repeat constructor; assumption|].
  rewrite app_nil_r. apply in_copies. repeat constructor; assumption.
Qed.
Lemma mixed_parts (P : event num -> Prop) : P (Gaussian (PyFloat 1)) -> P (Laplace (PyFloat 2)) -> P sampled_pair -> Forall P (flat_map parts (map fst mixed_history)).
Proof. intros H1 H2 H3. cbn. repeat constructor; assumption. Qed.
Lemma tree_parts (P : event num -> Prop) : P (TreeAggregation (PyFloat 1) (Trees [5; 8]%Z)) -> P (RandResp (PyFloat (1/2)) 3) -> Forall P (flat_map parts (map fst tree_history)).
Proof. intros H1 H2. cbn. repeat constructor; assumption. Qed.
Lemma mixed_example Phi frac fuel : let orders := [Fin 2; Fin 3] in exists A E,
  runs (rdp_mc frac fuel ADD_OR_REMOVE_ONE orders) (rdp_new orders) mixed_history A /\ pos_history mixed_history /\
  (forall a o, In a (flat_map parts (map fst mixed_history)) -> In o orders -> defined_at o a /\ frac_sound_for Phi frac o a) /\
  interaction (map (rdp_event Phi ADD_OR_REMOVE_ONE) (history_atoms mixed_history)) E /\
  length (history_atoms mixed_history) = 26%nat.
Proof.
  cbn zeta. set (orders := [Fin 2; Fin 3]).
  assert (PH : pos_history mixed_history) by (repeat constructor; cbn; try lia).
  assert (C : Forall (composes frac fuel ADD_OR_REMOVE_ONE orders) (history_atoms mixed_history)).
  { apply mixed_atoms; (eapply fine_composes with (s := []) (n := 1%Z); [exact Logic.I|]).
    - cbn [rdp_mc nval]. unfold rdp_poisson_gaussian. rewrite !Rleb_true by lra. cbn [andb negb xltb]. rewrite Rltb_false by lra. reflexivity.
    - cbn [rdp_mc nval]. rewrite Reqb_false by lra. unfold orders. cbn [map_res]. unfold laplace_rdp.
      rewrite (Rltb_false (1 / 2) 0), (Rltb_false 2 1), (Rltb_false 3 1), (Reqb_false 2 1), (Reqb_false 3 1), (Rltb_false 2 (11/10)), (Rltb_false 3 (11/10)) by lra. reflexivity.
    - unfold sampled_pair. cbn [rdp_mc relation_eqb effective_noise bind]. rewrite (Reqb_false 1 0), (Reqb_false 2 0) by lra. rewrite Reqb_false by lra.
      cbn [nval]. unfold rdp_poisson_gaussian. rewrite !Rleb_true by lra. cbn [andb negb xltb]. rewrite Rltb_false; [reflexivity|].
      left. apply Rinv_0_lt_compat, sqrt_lt_R0. lra. }
  destruct (runs_exists frac fuel ADD_OR_REMOVE_ONE orders mixed_history (rdp_new orders) PH) as [A HA]; [reflexivity | apply new_inv | exact C|].
  destruct (interaction_exists (map (rdp_event Phi ADD_OR_REMOVE_ONE) (history_atoms mixed_history))) as [E HE].
  { apply Forall_forall. intros D. rewrite in_map_iff. intros (a & <- & Ia). revert a Ia. rewrite <- Forall_forall. apply mixed_atoms.
    - destruct (query_exists (normal_law Phi 1)) as [E HE]. exists E, 0%nat. left. exists 1. split; [reflexivity|]. right. split; [lra|]. right. split; [lra | exact HE].
    - destruct (query_exists (laplace_law 2)) as [E HE]. exists E, 0%nat. left. exists 2. split; [reflexivity|]. split; [lra | exact HE].
    - destruct (query_exists (normal_law Phi 1)) as [E1 H1]. destruct (query_exists (normal_law Phi 2)) as [E2 H2].
      eexists. exists 0%nat, (1/2). eexists. split; [reflexivity|]. split; [|reflexivity]. right. split; [cbn; repeat split; try lra; discriminate|].
      cbn [atoms flat_map map app sigma_of]. apply (joint_snoc [_]); [apply (joint_snoc []); [constructor | exact H1] | exact H2]. }
  exists A, E. split; [exact HA|]. split; [exact PH|]. split; [|split; [exact HE | reflexivity]].
  intros a o Ia Io. revert a Ia. rewrite <- Forall_forall. apply mixed_parts.
  - split; exact Logic.I.
  - split; exact Logic.I.
  - assert (Hn : exists z : Z, o = Fin (IZR z) /\ (1 < z)%Z) by (destruct Io as [<-|[<-|[]]]; [exists 2%Z | exists 3%Z]; split; try reflexivity; lia).
    destruct Hn as (z & -> & Hz). split; [intros [= X]; apply eq_IZR in X; lia|]. intros q _ _ F. exfalso. revert F. unfold is_integer. rewrite Rfloor_IZR, Reqb_true by reflexivity. discriminate.
Qed.
Lemma tree_run_example Phi frac fuel : let orders := [Fin 2; PInf] in exists A E,
  runs (rdp_mc frac fuel REPLACE_SPECIAL orders) (rdp_new orders) tree_history A /\ pos_history tree_history /\
  (forall a o, In a (flat_map parts (map fst tree_history)) -> In o orders -> defined_at o a /\ frac_sound_for Phi frac o a) /\
  interaction (map (rdp_event Phi REPLACE_SPECIAL) (history_atoms tree_history)) E.
Proof.
  cbn zeta. set (orders := [Fin 2; PInf]).
  assert (PH : pos_history tree_history) by (repeat constructor; cbn; try lia).
  assert (C : Forall (composes frac fuel REPLACE_SPECIAL orders) (history_atoms tree_history)).
  { apply tree_atoms; (eapply fine_composes with (s := []) (n := 1%Z); [exact Logic.I|]).
    - cbn [rdp_mc nval]. unfold rdp_tree. cbn [relation_eqb negb xltb xeqb]. rewrite Rltb_false, Reqb_false by lra. reflexivity.
    - cbn [rdp_mc nval relation_eqb]. unfold rdp_randomized_response. rewrite !Rltb_false by lra. cbn [orb relation_eqb]. change (3 <? 1)%Z with false. unfold orders. cbn [map_res].
      unfold rr_rdp_special. cbn [xleb]. rewrite Rleb_false by lra. change (3 =? 1)%Z with false. rewrite !Reqb_false by lra. reflexivity. }
  destruct (runs_exists frac fuel REPLACE_SPECIAL orders tree_history (rdp_new orders) PH) as [A HA]; [reflexivity | apply new_inv | exact C|].
  destruct (interaction_exists (map (rdp_event Phi REPLACE_SPECIAL) (history_atoms tree_history))) as [E HE].
  { apply Forall_forall. intros D. rewrite in_map_iff. intros (a & <- & Ia). revert a Ia. rewrite <- Forall_forall. apply tree_atoms.
    - destruct (interaction_exists (map (fun v => if ((fst v =? 1)%nat && covers (snd v) 2)%bool then gaussian_query Phi 1 else no_leak) (forest 0 [5; 8]%Z))) as [E HE].
      + apply Forall_forall. intros D. rewrite in_map_iff. intros (v & <- & _). destruct (_ && _)%bool; [apply query_exists|].
        exists silent. split; [apply valid_silent|]. reflexivity.
      + exists E, 0%nat, 1. split; [reflexivity|]. right. split; [lra|]. exists 1%nat, 2%nat, (forest 0 [5; 8]%Z). split; [apply Permutation_refl | exact HE].
    - eexists. exists 0%nat, (1/2). split; [reflexivity|]. exists 0%Z. split; [|reflexivity]. left. reflexivity. }
  exists A, E. split; [exact HA|]. split; [exact PH|]. split; [|exact HE].
  intros a o Ia Io. revert a Ia. rewrite <- Forall_forall. apply tree_parts; (split; [|exact Logic.I]); [|exact Logic.I].
  intros _. exists 5%Z. split; [left; reflexivity | lia].
Qed.

(** ** Repeated selection *)
Definition candidate : event num := Composed [Laplace (PyFloat 2); Gaussian (PyFloat 1)].
Definition tuning : event num := RepeatAndSelect candidate (PyInt 2) (PyInt 1).
Definition tuned_history : list (event num * Z) := [(Gaussian (PyFloat 1), 2%Z); (tuning, 1%Z)].

(** The place of an observed interval, for cuts at 0 and 1. *)
Definition place (c : xr * xr) : nat := match fst c with Fin a => if Rltb a (1/2) then 1 else 2 | _ => 0 end.
Definition unit_query (F : R -> R) : exper := observe (sampled 1 (add_noise (fun x => F (x / 1)) 0) (add_noise (fun x => F (x / 1)) (0 + 1))) (add_noise (fun x => F (x / 1)) 0) [0; 1].
Lemma unit_query_scaled F : scaled_query F 1 (unit_query F).
Proof.
  exists 1. split; [lra|]. exists 0, 1, [0; 1]. split; [exact Logic.I|]. split; [exact Logic.I|]. split; [rewrite Rabs_R1; lra|].
  split; [|reflexivity]. repeat constructor; lra.
Qed.
Definition trial (Phi : R -> R) : exper := seq_exper (seq_exper silent (fun _ => unit_query (laplace_law 2))) (fun _ => unit_query (normal_law Phi 1)).
Definition trial_rank (Phi : R -> R) (o : outcome (trial Phi)) : nat := (3 * place (projT2 (projT1 o)) + place (projT2 o))%nat.
Lemma trial_ranked Phi : NoDup (map (trial_rank Phi) (outs (trial Phi))).
Proof.
  replace (map (trial_rank Phi) (outs (trial Phi))) with (seq 0 9); [apply seq_NoDup|].
  cbn -[place]. unfold trial_rank, place. cbn [projT1 projT2 fst]. rewrite (Rltb_true 0 (1/2)), (Rltb_false 1 (1/2)) by lra. reflexivity.
Qed.
Lemma trial_valid Phi : normal_cdf Phi -> valid (trial Phi).
Proof.
  intros H. apply valid_seq; [apply valid_seq; [apply valid_silent|]|]; intros _ _.
  - apply (laplace_form 2 ltac:(lra)), unit_query_scaled.
  - destruct (scaled_form _ _ (normal_law_cdf Phi H 1 ltac:(lra)) (unit_query_scaled _)) as (? & ? & ? & ? & ? & ? & ? & ? & ? & V). exact V.
Qed.
Lemma tuned_atoms (P : event num -> Prop) : P (Gaussian (PyFloat 1)) -> P tuning -> Forall P (history_atoms tuned_history).
Proof. intros H1 H2. cbn. repeat constructor; assumption. Qed.
Lemma tuned_example Phi frac fuel : normal_cdf Phi -> let orders := [Fin 2; Fin 3] in exists A E,
  runs (rdp_mc frac fuel ADD_OR_REMOVE_ONE orders) (rdp_new orders) tuned_history A /\ pos_history tuned_history /\
  (forall a o, In a (flat_map parts (map fst tuned_history)) -> In o orders -> defined_at o a /\ frac_sound_for Phi frac o a) /\
  interaction (map (rdp_event Phi ADD_OR_REMOVE_ONE) (history_atoms tuned_history)) E.
Proof.
  intros HPhi. cbn zeta. set (orders := [Fin 2; Fin 3]).
  assert (PH : pos_history tuned_history) by (repeat constructor; cbn; try lia).
  assert (C : Forall (composes frac fuel ADD_OR_REMOVE_ONE orders) (history_atoms tuned_history)).
  { apply tuned_atoms; (eapply fine_composes with (s := []) (n := 1%Z); [exact Logic.I|]).
    - cbn [rdp_mc nval]. unfold rdp_poisson_gaussian. rewrite !Rleb_true by lra. cbn [andb negb xltb]. rewrite Rltb_false by lra. reflexivity.
    - unfold tuning, candidate. cbn [rdp_mc nval]. rewrite Reqb_false by lra. unfold orders. cbn [map_res]. unfold laplace_rdp.
      rewrite (Rltb_false (1 / 2) 0), (Rltb_false 2 1), (Rltb_false 3 1), (Reqb_false 2 1), (Reqb_false 3 1), (Rltb_false 2 (11/10)), (Rltb_false 3 (11/10)) by lra.
      cbn [bind]. unfold rdp_poisson_gaussian. rewrite !Rleb_true by lra. cbn [andb negb xltb]. rewrite Rltb_false by lra.
      unfold charge. cbn [map].
      match goal with |- context [rdp_repeat_and_select fuel ?o ?r _ _] => destruct (select_total o r 1 2 fuel (1/2)) as [v Hv] end.
      + intros a [<-|[<-|[]]]; cbn; lra.
      + discriminate.
      + reflexivity.
      + lra.
      + lra.
      + unfold gamma_tnb. cbn [xltb]. rewrite !Rltb_false, Reqb_true by lra. reflexivity.
      + lra.
      + rewrite Hv. reflexivity. }
  destruct (runs_exists frac fuel ADD_OR_REMOVE_ONE orders tuned_history (rdp_new orders) PH) as [A HA]; [reflexivity | apply new_inv | exact C|].
  destruct (interaction_exists (map (rdp_event Phi ADD_OR_REMOVE_ONE) (history_atoms tuned_history))) as [E HE].
  { apply Forall_forall. intros D. rewrite in_map_iff. intros (a & <- & Ia). revert a Ia. rewrite <- Forall_forall. apply tuned_atoms.
    - destruct (query_exists (normal_law Phi 1)) as [E HE]. exists E, 0%nat. left. exists 1. split; [reflexivity|]. right. split; [lra|]. right. split; [lra | exact HE].
    - destruct (selects_exists (tnb_runs 1 (1/2)) _ (trial Phi) _ (fun x => tnb_pgf 1 (1/2) ltac:(lra) ltac:(lra) x) (trial_valid Phi HPhi) (trial_ranked Phi)) as [T HT].
      exists T, 1%nat, (trial Phi), 2, (tnb_runs 1 (1/2)). split; [reflexivity|]. split; [|split; [exact geometric_law | exact HT]].
      cbn [atoms flat_map candidate map app]. apply (inter_snoc [_]); [apply (inter_snoc []); [constructor|] |]; intros _ _.
      + left. exists 2. split; [reflexivity|]. split; [lra | apply unit_query_scaled].
      + left. exists 1. split; [reflexivity|]. right. split; [lra|]. right. split; [lra | apply unit_query_scaled]. }
  exists A, E. split; [exact HA|]. split; [exact PH|]. split; [|exact HE].
  intros a o Ia Io. cbn in Ia. destruct Ia as [<-|[<-|[<-|[<-|[]]]]]; split; try exact Logic.I.
  intros _ ->. destruct Io as [[=]|[[=]|[]]]; lra.
Qed.

(** ** Sampling without replacement *)
Definition census : event num := SampledWithoutReplacement 4 2 (Gaussian (PyFloat 2)).
Definition census_history : list (event num * Z) := [(census, 3%Z); (Gaussian (PyFloat 1), 2%Z)].
Definition votes (l : list bool) : R := INR (length (filter (fun b => b) l)).
(** The number of votes among those sampled, with noise, as seen between 0 and 1. *)
Definition poll (Phi : R -> R) (l : list bool) (c : xr * xr) : R :=
  let F := add_noise (fun x => normal_law Phi 2 (x / 1)) (votes l) in at_end F (snd c) - at_end F (fst c).
Lemma votes_perm l l' : Permutation l l' -> votes l = votes l'.
Proof. intros H. unfold votes. f_equal. apply filter_perm, H. Qed.
Lemma votes_cons b l : votes (b :: l) = (if b then 1 else 0) + votes l.
Proof. unfold votes. cbn [filter]. destruct b; cbn [length]; [rewrite S_INR|]; ring. Qed.
Lemma poll_query Phi l l' : replaces l l' -> scaled_query (normal_law Phi 2) 1 (mkExper (xr * xr) (cells [0; 1]) (poll Phi l) (poll Phi l')).
Proof.
  intros (x & y & v & A & B). exists 1. split; [lra|]. exists (votes l'), (votes l - votes l'), [0; 1]. split; [exact Logic.I|]. split; [exact Logic.I|].
  rewrite (votes_perm _ _ A), (votes_perm _ _ B), !votes_cons. split; [destruct x, y; apply Rabs_le; lra|]. split; [repeat constructor; lra|].
  rewrite <- !votes_cons, <- (votes_perm _ _ A), <- (votes_perm _ _ B). unfold observe. f_equal.
  apply functional_extensionality. intros c. unfold poll. cbn zeta. set (F := fun x => normal_law Phi 2 (x / 1)).
  replace (sampled 1 (add_noise F (votes l')) (add_noise F (votes l' + (votes l - votes l')))) with (add_noise F (votes l)); [reflexivity|].
  apply functional_extensionality. intros z. unfold sampled. replace (votes l' + (votes l - votes l')) with (votes l) by ring. ring.
Qed.
Lemma poll_laws Phi l : normal_cdf Phi -> (forall o, In o (cells [0; 1]) -> 0 <= poll Phi l o) /\ rsum (poll Phi l) (cells [0; 1]) = 1.
Proof.
  intros H. assert (R : forall b, replaces (b :: l) (b :: l)) by (intros b; exists b, b, l; split; reflexivity).
  destruct l as [|b l].
  - destruct (scaled_form _ _ (normal_law_cdf Phi H 2 ltac:(lra)) (poll_query Phi [false] [true] (ex_intro _ false (ex_intro _ true (ex_intro _ [] (conj (Permutation_refl _) (Permutation_refl _))))))) as (? & ? & ? & ? & ? & ? & ? & ? & ? & V).
    destruct V as (V1 & V2 & _). split; [intros o Ho; exact (proj1 (V1 o Ho)) | exact V2].
  - destruct (scaled_form _ _ (normal_law_cdf Phi H 2 ltac:(lra)) (poll_query Phi (b :: l) (b :: l) (ex_intro _ b (ex_intro _ b (ex_intro _ l (conj (Permutation_refl _) (Permutation_refl _))))))) as (? & ? & ? & ? & ? & ? & ? & ? & ? & V).
    destruct V as (V1 & V2 & _). split; [intros o Ho; exact (proj1 (V1 o Ho)) | exact V2].
Qed.
Lemma wor_order_total q s a : 0 < q < 1 -> 0 < s -> 1 <= a -> exists r, wor_order q (SNum (Fin s)) (Fin a) = Ok r.
Proof.
  intros Hq Hs Ha. unfold wor_order. rewrite (Rleb_true q 1), (Rleb_true 0 q) by lra. cbn [xleb]. rewrite (Rleb_true 1 a) by lra. cbn [andb negb].
  rewrite (Reqb_false q 0), (Reqb_false q 1), (Reqb_false s 0) by lra. destruct (Reqb a 1); [eauto|]. cbv zeta. destruct (is_integer a); eauto.
Qed.
Lemma census_example Phi frac fuel : normal_cdf Phi -> let orders := [Fin 2; Fin (7/2)] in exists A E,
  runs (rdp_mc frac fuel REPLACE_ONE orders) (rdp_new orders) census_history A /\ pos_history census_history /\
  (forall a o, In a (flat_map parts (map fst census_history)) -> In o orders -> defined_at o a /\ frac_sound_for Phi frac o a) /\
  interaction (map (rdp_event Phi REPLACE_ONE) (history_atoms census_history)) E.
Proof.
  intros HPhi. cbn zeta. set (orders := [Fin 2; Fin (7/2)]).
  assert (PH : pos_history census_history) by (repeat constructor; cbn; try lia).
  assert (AT : forall P : event num -> Prop, P census -> P (Gaussian (PyFloat 1)) -> Forall P (history_atoms census_history)) by (intros P H1 H2; cbn; repeat constructor; assumption).
  assert (C : Forall (composes frac fuel REPLACE_ONE orders) (history_atoms census_history)).
  { apply AT; (eapply fine_composes with (s := []) (n := 1%Z); [exact Logic.I|]).
    - unfold census. cbn [rdp_mc nval relation_eqb negb effective_noise]. change (4 =? 0)%Z with false. unfold rdp_wor_gaussian, orders. cbn [map_res bind].
      destruct (wor_order_total (2 / 4) 2 2 ltac:(lra) ltac:(lra) ltac:(lra)) as [r1 ->]. destruct (wor_order_total (2 / 4) 2 (7/2) ltac:(lra) ltac:(lra) ltac:(lra)) as [r2 ->]. reflexivity.
    - cbn [rdp_mc nval]. unfold rdp_poisson_gaussian. rewrite !Rleb_true by lra. cbn [andb negb xltb]. rewrite Rltb_false by lra. reflexivity. }
  destruct (runs_exists frac fuel REPLACE_ONE orders census_history (rdp_new orders) PH) as [A HA]; [reflexivity | apply new_inv | exact C|].
  destruct (interaction_exists (map (rdp_event Phi REPLACE_ONE) (history_atoms census_history))) as [E HE].
  { apply Forall_forall. intros D. rewrite in_map_iff. intros (a & <- & Ia). revert a Ia. rewrite <- Forall_forall. apply AT.
    - eexists. exists 0%nat, 4%nat, 2%nat. split; [reflexivity|]. split; [reflexivity|].
      exists bool, (xr * xr)%type, (cells [0; 1]), (poll Phi), [true; false; true; false], [true; true; true; false]. split; [reflexivity|]. split; [lia|].
      split; [exists false, true, [true; true; false]; split; [apply perm_swap | apply Permutation_refl]|]. split; [intros s _; apply poll_laws, HPhi|].
      split; [intros s s' P o; unfold poll; rewrite (votes_perm _ _ P); reflexivity|]. split; [|reflexivity].
      intros s s' _ R. left. exists (PyFloat 2), 2. split; [reflexivity|]. split; [reflexivity|]. right. split; [lra|]. right. split; [lra | apply poll_query, R].
    - destruct (query_exists (normal_law Phi 1)) as [E HE]. exists E, 0%nat. left. exists 1. split; [reflexivity|]. right. split; [lra|]. right. split; [lra | exact HE]. }
  exists A, E. split; [exact HA|]. split; [exact PH|]. split; [|exact HE].
  intros a o Ia Io. cbn in Ia. destruct Ia as [<-|[<-|[]]]; split; try exact Logic.I.
  intros ->. destruct Io as [[=]|[[=]|[]]]; lra.
Qed.
