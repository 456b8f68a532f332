(** Histories of a generator. *)
From Coq Require Import String DecimalString Permutation.
From Verif Require Import Base Exn XReal TypesGen ModelGen SpecGen ProofGen.

Lemma last_rev {A} (l : list (option A)) : match rev l with [] => None | t :: _ => t end = last l None.
Proof.
  destruct l as [|a l] using rev_ind; [reflexivity|]. rewrite rev_app_distr, last_last. reflexivity.
Qed.
Lemma truthy_spec r : match truthy r with Some x => reported r x | None => silent r end.
Proof.
  unfold truthy, reported, silent. destruct r as [x|]; [|left; reflexivity]. destruct (xeqb x (Fin 0)) eqn:E.
  - right. f_equal. destruct x as [a| | |]; cbn in E; try discriminate. destruct (Reqb_spec a 0); [congruence | discriminate].
  - split; [reflexivity|]. intros ->. cbn in E. rewrite Reqb_true in E by reflexivity. discriminate.
Qed.

Section Run.
  Context {S D : Type} (suggest : S -> S * res (list (option trial))) (complete : S -> trial -> xr -> S * res unit)
          (datasets : list R -> res (D * D)).
  Notation call := (gen_call (log_suggest suggest) (log_complete complete) datasets).
  (** The datasets of a trial. *)
  Definition made (table : list (string * nat)) (n : nat) (t : trial) (d : D * D) : Prop :=
    exists p, fill table (trial_parameters t) (repeat 0 n) = Ok p /\ datasets p = Ok d.

  Lemma first_call r table n s log st d : call r (mkGen table n false None, (s, log)) = (st, Ok d) ->
    exists s' t, st = (mkGen table n true (Some t), (s', log ++ [Suggested t])) /\ made table n t d.
  Proof.
    unfold gen_call. assert (E : match truthy r with Some x => complete_trial (log_complete complete) x (mkGen table n false None, (s, log)) | None => ((mkGen table n false None, (s, log)), Ok tt) end
      = ((mkGen table n false None, (s, log)), Ok tt)) by (destruct (truthy r); reflexivity).
    rewrite E. unfold load_trial, get_trial, log_suggest. cbn [trial_loaded fst snd]. destruct (suggest s) as [s' [l|e]]; [|discriminate].
    rewrite <- (last_rev l). destruct (rev l) as [|[t|] l']; [discriminate| |discriminate]. cbn. unfold extract_params. cbn [last_trial str_to_idx num_params trial_parameters].
    destruct (fill table (trial_parameters t) (repeat 0 n)) as [p|] eqn:EF; [|discriminate]. cbn [bind]. intros [= <- H]. exists s', t. split; [reflexivity|]. exists p. auto.
  Qed.
  Lemma next_call r table n t0 s log st d : call r (mkGen table n true (Some t0), (s, log)) = (st, Ok d) ->
    (silent r /\ st = (mkGen table n true (Some t0), (s, log)) /\ made table n t0 d) \/
    (exists x s' t, reported r x /\ st = (mkGen table n true (Some t), (s', log ++ [Completed t0 x; Suggested t])) /\ made table n t d).
  Proof.
    unfold gen_call. pose proof (truthy_spec r) as T. destruct (truthy r) as [x|].
    - unfold complete_trial. cbn [last_trial]. unfold log_complete. cbn [fst snd]. destruct (complete s t0 x) as [s1 [u|e]]; [|discriminate].
      unfold load_trial, get_trial, log_suggest. cbn [trial_loaded fst snd str_to_idx num_params]. destruct (suggest s1) as [s' [l|e]]; [|discriminate].
      rewrite <- (last_rev l). destruct (rev l) as [|[t|] l']; [discriminate| |discriminate]. cbn. unfold extract_params. cbn [last_trial str_to_idx num_params trial_parameters].
      destruct (fill table (trial_parameters t) (repeat 0 n)) as [p|] eqn:EF; [|discriminate]. cbn [bind]. intros [= <- H]. right. exists x, s', t. split; [exact T|]. rewrite <- app_assoc. split; [reflexivity|]. exists p. auto.
    - cbn. unfold extract_params. cbn [last_trial str_to_idx num_params trial_parameters]. destruct (fill table (trial_parameters t0) (repeat 0 n)) as [p|] eqn:EF; [|discriminate]. cbn [bind]. intros [= <- H].
      left. split; [exact T|]. split; [reflexivity|]. exists p. auto.
  Qed.
  Definition before (table : list (string * nat)) (n : nat) (p : option trial) : gen_state := mkGen table n (match p with Some _ => true | None => false end) p.
  Lemma run_protocol table n : forall h p s log st, returned call (before table n p, (s, log)) h st ->
    exists ts log', snd (snd st) = log ++ log' /\ List.length ts = List.length h /\ Forall2 (fun rd t => made table n t (snd rd)) h ts
      /\ protocol p (combine (map fst h) ts) log'.
  Proof.
    induction h as [|[r d] h IH]; intros p s log st H.
    - inversion H; subst. exists [], []. cbn. rewrite app_nil_r. repeat split; constructor.
    - inversion H as [|? ? ? s1 ? ? HC HR]; subst. destruct p as [t0|].
      + destruct (next_call r table n t0 s log s1 d HC) as [(T & -> & M)|(x & s' & t & T & -> & M)].
        * destruct (IH (Some t0) _ _ _ HR) as (ts & log' & E & L & F & P). exists (t0 :: ts), log'. split; [exact E|]. split; [cbn; lia|]. split; [constructor; assumption|].
          cbn. apply protocol_same; assumption.
        * destruct (IH (Some t) _ _ _ HR) as (ts & log' & E & L & F & P). exists (t :: ts), (Completed t0 x :: Suggested t :: log'). rewrite E, <- app_assoc. split; [reflexivity|].
          split; [cbn; lia|]. split; [constructor; assumption|]. cbn. apply protocol_next; assumption.
      + destruct (first_call r table n s log s1 d HC) as (s' & t & -> & M). destruct (IH (Some t) _ _ _ HR) as (ts & log' & E & L & F & P).
        exists (t :: ts), (Suggested t :: log'). rewrite E, <- app_assoc. split; [reflexivity|]. split; [cbn; lia|]. split; [constructor; assumption|]. cbn. apply protocol_first, P.
  Qed.
  (** Every trial used was suggested. *)
  Lemma protocol_suggested p calls log : protocol p calls log -> forall r t, In (r, t) calls -> In (Suggested t) log \/ p = Some t.
  Proof.
    induction 1 as [|r0 t0 cs l H IH|t0 r0 x t1 cs l R H IH|t0 r0 cs l R H IH]; intros r t I; [destruct I| | |].
    - destruct I as [[= -> ->]|I]; [left; left; reflexivity|]. destruct (IH _ _ I) as [A|[= ->]]; left; [right; exact A | left; reflexivity].
    - destruct I as [[= -> ->]|I]; [left; right; left; reflexivity|]. destruct (IH _ _ I) as [A|[= ->]]; left; [right; right; exact A | right; left; reflexivity].
    - destruct I as [[= -> ->]|I]; [right; reflexivity|]. exact (IH _ _ I).
  Qed.
End Run.

(** ** Construction *)
Lemma py_int_spec x : toward_zero x (py_int x).
Proof.
  unfold toward_zero, py_int. pose proof (Rfloor_spec x) as F. destruct (Rltb_spec x 0) as [L|L].
  - split; [intros; lra|]. intros _. pose proof (Rceil_spec x). lra.
  - split; intros; [exact F|]. assert (x = 0) by lra. subst x. assert (Rfloor 0 = 0%Z) as -> by (apply Rfloor_unique; cbn; lra). lra.
Qed.
Lemma vizier_space_ok {V} (study : list param -> res V) c g v : new_vizier study c = Ok (g, v) ->
  exists ps, vizier_space c ps /\ study ps = Ok v /\ map (fun p => match p with FloatParam n _ _ | IntParam n _ _ => n end) ps = map (fun i => append "x" (str_of_nat i)) (seq 0 (num_vizier_parameters c))
    /\ g = before (numbered (fun i => append "x" (str_of_nat i)) (num_vizier_parameters c)) (num_vizier_parameters c) None.
Proof.
  unfold new_vizier, params_name_mapping. rewrite name_table_eq by reflexivity. cbn [bind]. unfold add_params, names, vizier_space.
  destruct (vc_type c); [discriminate| |]; cbn [bind]; rewrite map_map.
  - destruct (study _) as [v'|] eqn:ES; [|discriminate]. intros [= <- <-]. eexists. split; [exists (py_int (vc_min c)), (py_int (vc_max c)); split; [apply py_int_spec|]; split; [apply py_int_spec | reflexivity]|].
    split; [exact ES|]. rewrite map_map. split; reflexivity.
  - destruct (study _) as [v'|] eqn:ES; [|discriminate]. intros [= <- <-]. eexists. split; [reflexivity|]. split; [exact ES|]. rewrite map_map. split; reflexivity.
Qed.
Definition class_name (nf i : nat) : string := if (i <? nf)%nat then append "float" (str_of_nat i) else append "int" (str_of_nat i).
Lemma class_name_inj nf i j : class_name nf i = class_name nf j -> i = j.
Proof.
  unfold class_name. destruct (Nat.ltb i nf), (Nat.ltb j nf); intros H; try (apply name_inj in H; exact H); discriminate H.
Qed.
Lemma class_table nf m : map (fun i => (append "float" (str_of_nat i), i)) (seq 0 nf) ++ map (fun i => (append "int" (str_of_nat i), i)) (seq nf m) = numbered (class_name nf) (nf + m).
Proof.
  unfold numbered. rewrite seq_app, map_app. f_equal; apply map_ext_in; intros i H; apply in_seq in H; unfold class_name; destruct (Nat.ltb_spec i nf); try reflexivity; lia.
Qed.
Lemma class_space_ok {V} (study : list param -> res V) c g v : new_class study c = Ok (g, v) ->
  let nf := (sample_dim c * num_samples_cc c)%nat in let n := (nf + num_samples_cc c)%nat in
  study (class_space c) = Ok v /\ map (fun p => match p with FloatParam n _ _ | IntParam n _ _ => n end) (class_space c) = map (class_name nf) (seq 0 n)
  /\ g = before (numbered (class_name nf) n) n None.
Proof.
  unfold new_class, class_params. rewrite !name_table_eq by reflexivity. cbn [bind]. cbn zeta. unfold names. rewrite !map_map, class_table.
  unfold class_space. destruct (study _) as [v'|] eqn:ES; [|discriminate]. intros [= <- <-]. split; [reflexivity|]. split; [|reflexivity].
  rewrite map_app, !map_map, seq_app, map_app. f_equal; apply map_ext_in; intros i H; apply in_seq in H; unfold class_name; destruct (Nat.ltb_spec i (sample_dim c * num_samples_cc c)); try reflexivity; lia.
Qed.
Lemma space_names ps l : Forall2 (fun p nv => in_space p (fst nv) (snd nv)) ps l -> map fst l = map (fun p => match p with FloatParam n _ _ | IntParam n _ _ => n end) ps.
Proof. induction 1 as [|p [nm v] ps l H F IH]; cbn; [reflexivity|]. f_equal; [|exact IH]. destruct p; cbn in H; symmetry; apply H. Qed.
Lemma made_values {D} (datasets : list R -> res (D * D)) (name : nat -> string) ps t d : (forall i j, name i = name j -> i = j) ->
  map (fun p => match p with FloatParam n _ _ | IntParam n _ _ => n end) ps = map name (seq 0 (List.length ps)) -> in_search_space ps t ->
  made datasets (numbered name (List.length ps)) (List.length ps) t d -> exists xs, values ps t xs /\ datasets xs = Ok d.
Proof.
  intros U N (l & P & F) (p & EF & ED). rewrite (extract_values name ps t l U P F) in EF by (rewrite (space_names _ _ F); exact N). injection EF as <-.
  exists (map snd l). split; [exists l; auto | exact ED].
Qed.
(** Histories of a generator with a search space. *)
Lemma space_history {S D} suggest complete (datasets : list R -> res (D * D)) (name : nat -> string) ps (s s' : S) g' log h : (forall i j, name i = name j -> i = j) ->
  map (fun p => match p with FloatParam n _ _ | IntParam n _ _ => n end) ps = map name (seq 0 (List.length ps)) ->
  returned (gen_call (log_suggest suggest) (log_complete complete) datasets) (before (numbered name (List.length ps)) (List.length ps) None, (s, [])) h (g', (s', log)) ->
  (forall t, In (Suggested t) log -> in_search_space ps t) ->
  exists ts, List.length ts = List.length h /\ protocol None (combine (map fst h) ts) log
    /\ Forall2 (fun rd t => exists xs, values ps t xs /\ datasets xs = Ok (snd rd)) h ts.
Proof.
  intros U N H HS. destruct (run_protocol suggest complete datasets _ _ h None s [] _ H) as (ts & log' & E & L & F & P). cbn in E. subst log'. exists ts. split; [exact L|]. split; [exact P|].
  pose proof (protocol_suggested _ _ _ P) as SG.
  assert (IN : forall t, In t ts -> In (Suggested t) log).
  { intros t I. apply (In_nth _ _ t) in I. destruct I as (i & Hi & E). destruct (SG (nth i (map fst h) None) t) as [A|A]; [|exact A|discriminate].
    rewrite <- E at 1. rewrite <- combine_nth by (rewrite map_length; lia). apply nth_In. rewrite combine_length, map_length. lia. }
  clear P SG H. revert IN. induction F as [|[r d] t h ts M F IH]; intros IN; constructor.
  - apply (made_values datasets name); try assumption. apply HS, IN. left. reflexivity.
  - apply IH; [cbn in L; lia | intros t' I; apply IN; right; exact I].
Qed.

(** A first call with a service that does not answer. *)
Lemma first_call_raises {S D} (study : list param -> res S) suggest complete (datasets : list R -> res (D * D)) c g v :
  new_vizier study c = Ok (g, v) -> forall r,
  (forall v' e, suggest v = (v', Err e) -> gen_call suggest complete datasets r (g, v) = ((g, v'), Err e)) /\
  (forall v', suggest v = (v', Ok []) -> gen_call suggest complete datasets r (g, v) = ((g, v'), Err IndexError)) /\
  (forall v' l, suggest v = (v', Ok (l ++ [None])) -> gen_call suggest complete datasets r (g, v) = ((g, v'), Err ValueError)).
Proof.
  unfold new_vizier. destruct (params_name_mapping _) as [[ns table]|]; [|discriminate]. cbn [bind]. destruct (add_params _ _) as [ps|]; [|discriminate]. cbn [bind].
  destruct (study ps) as [v0|]; [|discriminate]. cbn [bind]. intros [= <- <-] r.
  assert (E : forall st, match truthy r with Some x => complete_trial complete x (mkGen table (num_vizier_parameters c) false None, st) | None => ((mkGen table (num_vizier_parameters c) false None, st), Ok tt) end
      = ((mkGen table (num_vizier_parameters c) false None, st), Ok tt)) by (intros; destruct (truthy r); reflexivity).
  unfold gen_call. rewrite E. unfold load_trial, get_trial. cbn [trial_loaded]. split; [|split].
  - intros v' e ->. reflexivity.
  - intros v' ->. reflexivity.
  - intros v' l ->. rewrite rev_app_distr. reflexivity.
Qed.
