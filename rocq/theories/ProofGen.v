(** Dataset generators: names, extraction, protocol. *)
From Coq Require Import Ascii String DecimalString DecimalNat Permutation.
From Verif Require Import Base Exn XReal TypesGen ModelGen SpecGen.

(** ** Names *)
Fixpoint digits (s : string) : bool :=
  match s with
  | EmptyString => true
  | String c s => (Ascii.eqb c "0" || Ascii.eqb c "1" || Ascii.eqb c "2" || Ascii.eqb c "3" || Ascii.eqb c "4"
      || Ascii.eqb c "5" || Ascii.eqb c "6" || Ascii.eqb c "7" || Ascii.eqb c "8" || Ascii.eqb c "9") && digits s
  end%char%bool.
Lemma digits_uint u : digits (NilEmpty.string_of_uint u) = true.
Proof. induction u; cbn; auto. Qed.
Definition sep_ok (sep : string) : bool := match sep with EmptyString => false | String c _ => negb (digits (String c EmptyString)) end.
Lemma no_sep sep d : sep_ok sep = true -> digits d = true -> String.index 0 sep d = None.
Proof.
  intros HS. destruct sep as [|c sep]; [discriminate|]. induction d as [|a d IH]; intros HD; [reflexivity|].
  cbn [digits] in HD. apply andb_prop in HD. destruct HD as [HA HD]. cbn [String.index String.prefix].
  destruct (Ascii.ascii_dec c a) as [E|N]; [subst; exfalso; cbn [sep_ok digits] in HS; rewrite HA in HS; discriminate|]. rewrite (IH HD). reflexivity.
Qed.
Lemma prefix_append sep d : String.prefix sep (append sep d) = true.
Proof. induction sep as [|c sep IH]; cbn; [destruct d; reflexivity|]. destruct (Ascii.ascii_dec c c); [exact IH | congruence]. Qed.
Lemma substring_all d n : (String.length d <= n)%nat -> substring 0 n d = d.
Proof. revert n. induction d as [|c d IH]; intros [|n] H; cbn in *; try reflexivity; try lia. f_equal. apply IH. lia. Qed.
Lemma substring_append sep d n : (String.length d <= n)%nat -> substring (String.length sep) n (append sep d) = d.
Proof. induction sep as [|c sep IH]; intros H; cbn; [apply substring_all, H | apply IH, H]. Qed.
Lemma length_append a b : String.length (append a b) = (String.length a + String.length b)%nat.
Proof. induction a; cbn; auto. Qed.
Lemma split_name sep d : sep_ok sep = true -> digits d = true -> split_second sep (append sep d) = Ok d.
Proof.
  intros HS HD. unfold split_second.
  assert (I : String.index 0 sep (append sep d) = Some O).
  { pose proof (prefix_append sep d) as P. destruct (append sep d) as [|c s] eqn:E; [destruct sep; [discriminate HS | discriminate E]|]. cbn [String.index]. rewrite P. reflexivity. }
  rewrite I. cbn [plus]. rewrite substring_append by (rewrite length_append; lia). rewrite no_sep by assumption. reflexivity.
Qed.
Lemma parse_str i : int_of_str (str_of_nat i) = Ok i.
Proof. unfold int_of_str, str_of_nat. rewrite NilEmpty.usu. f_equal. apply DecimalNat.Unsigned.of_to. Qed.
Lemma name_table_eq sep idx : sep_ok sep = true -> name_table sep idx = Ok (map (fun i => (append sep (str_of_nat i), i)) idx).
Proof.
  intros HS. unfold name_table, names. induction idx as [|i idx IH]; [reflexivity|]. cbn [map map_res].
  rewrite split_name; [|exact HS | apply digits_uint]. cbn [bind]. rewrite parse_str. cbn [bind]. rewrite IH. reflexivity.
Qed.
Lemma append_inj a b c : append a b = append a c -> b = c.
Proof. induction a as [|x a IH]; cbn; [auto | intros [= H]; apply IH, H]. Qed.
Lemma str_inj i j : str_of_nat i = str_of_nat j -> i = j.
Proof. intros H. pose proof (parse_str i) as A. rewrite H, parse_str in A. injection A as ->. reflexivity. Qed.
Lemma name_inj sep i j : append sep (str_of_nat i) = append sep (str_of_nat j) -> i = j.
Proof. intros H. apply append_inj in H. apply str_inj, H. Qed.

(** ** Tables *)
Definition numbered (name : nat -> string) (n : nat) : list (string * nat) := map (fun i => (name i, i)) (seq 0 n).
Lemma lookup_in tbl name i : (forall k j j', In (k, j) tbl -> In (k, j') tbl -> j = j') -> In (name, i) tbl -> lookup name tbl = Ok i.
Proof.
  induction tbl as [|[k j] tbl IH]; intros U H; [destruct H|]. cbn [lookup]. destruct (String.eqb_spec name k) as [->|N].
  - f_equal. apply (U k); [left; reflexivity | exact H].
  - destruct H as [[= -> ->]|H]; [congruence|]. apply IH; [|exact H]. intros k' a b Ha Hb. apply (U k'); right; assumption.
Qed.
Lemma lookup_numbered (name : nat -> string) n i : (forall i j, name i = name j -> i = j) -> (i < n)%nat -> lookup (name i) (numbered name n) = Ok i.
Proof.
  intros U H. apply lookup_in.
  - intros k j j' Hj Hj'. apply in_map_iff in Hj, Hj'. destruct Hj as (a & [= <- <-] & _), Hj' as (b & [= E <-] & _). symmetry. apply U, E.
  - apply in_map_iff. exists i. split; [reflexivity | apply in_seq; lia].
Qed.

(** ** Extraction *)
Lemma set_nth_length {A} i (x : A) l : List.length (set_nth i x l) = List.length l.
Proof. revert i. induction l as [|a l IH]; intros [|i]; cbn; auto. Qed.
Lemma set_nth_same {A} i (x d : A) l : (i < List.length l)%nat -> nth i (set_nth i x l) d = x.
Proof. revert i. induction l as [|a l IH]; intros [|i] H; cbn in *; try lia; [reflexivity | apply IH; lia]. Qed.
Lemma set_nth_other {A} i j (x d : A) l : i <> j -> nth j (set_nth i x l) d = nth j l d.
Proof. revert i j. induction l as [|a l IH]; intros [|i] [|j] H; cbn; try congruence; try reflexivity. apply IH. lia. Qed.
Lemma fill_spec table : forall ps data r, fill table ps data = Ok r -> NoDup (map fst ps) ->
  (forall k k' i, lookup k table = Ok i -> lookup k' table = Ok i -> k = k') ->
  List.length r = List.length data /\ (forall name v, In (name, v) ps -> exists i, lookup name table = Ok i /\ (i < List.length r)%nat /\ nth i r 0 = v)
  /\ (forall j, (forall name v, In (name, v) ps -> lookup name table <> Ok j) -> nth j r 0 = nth j data 0).
Proof.
  induction ps as [|[name v] ps IH]; intros data r H ND U.
  - injection H as <-. split; [reflexivity|]. split; [intros ? ? []|reflexivity].
  - cbn [fill] in H. destruct (lookup name table) as [i|e] eqn:L; [|discriminate]. cbn [bind] in H. destruct (Nat.ltb_spec i (List.length data)) as [Hi|]; [|discriminate].
    cbn [map fst] in ND. apply NoDup_cons_iff in ND. destruct ND as [NI ND]. destruct (IH _ _ H ND U) as (E & A & B). rewrite set_nth_length in E. split; [exact E|]. split.
    + intros name' v' [[= <- <-]|I]; [|apply A, I]. exists i. split; [exact L|]. split; [lia|]. rewrite B; [apply set_nth_same, Hi|].
      intros k w I K. apply NI. rewrite (U name k i L K). apply in_map_iff. exists (k, w). auto.
    + intros j NJ. rewrite B; [|intros k w I; apply (NJ k w); right; exact I]. apply set_nth_other. intros ->. apply (NJ name v); [left; reflexivity | exact L].
Qed.
Lemma fill_ok table : forall ps data, (forall name v, In (name, v) ps -> exists i, lookup name table = Ok i /\ (i < List.length data)%nat) -> exists r, fill table ps data = Ok r.
Proof.
  induction ps as [|[name v] ps IH]; intros data H; [eexists; reflexivity|]. cbn [fill]. destruct (H name v (or_introl eq_refl)) as (i & L & Hi). rewrite L. cbn [bind].
  destruct (Nat.ltb_spec i (List.length data)); [|lia]. apply IH. intros k w I. rewrite set_nth_length. apply (H k w). right. exact I.
Qed.
Lemma lookup_numbered_inv (name : nat -> string) n k i : lookup k (numbered name n) = Ok i -> k = name i /\ (i < n)%nat.
Proof.
  unfold numbered. assert (G : forall l, lookup k (map (fun i => (name i, i)) l) = Ok i -> k = name i /\ In i l).
  { induction l as [|j l IH]; cbn [map lookup]; [discriminate|]. destruct (String.eqb_spec k (name j)) as [->|_]; [intros [= <-]; split; [reflexivity | left; reflexivity]|].
    intros H. destruct (IH H) as [A B]. split; [exact A | right; exact B]. }
  intros H. destruct (G _ H) as [A B]. apply in_seq in B. split; [exact A | lia].
Qed.
(** The values of a trial in the search space, in the order of the parameters. *)
Lemma extract_values (name : nat -> string) ps t l : (forall i j, name i = name j -> i = j) ->
  Permutation (trial_parameters t) l -> Forall2 (fun p nv => in_space p (fst nv) (snd nv)) ps l -> map fst l = map name (seq 0 (List.length ps)) ->
  fill (numbered name (List.length ps)) (trial_parameters t) (repeat 0 (List.length ps)) = Ok (map snd l).
Proof.
  intros U P F N. set (n := List.length ps) in *.
  assert (LL : List.length l = n) by (unfold n; clear -F; induction F; cbn; congruence).
  assert (IN : forall nm v, In (nm, v) l -> exists i, (i < n)%nat /\ nm = name i).
  { intros nm v H. assert (I : In nm (map fst l)) by (apply in_map_iff; exists (nm, v); auto). rewrite N in I. apply in_map_iff in I. destruct I as (i & <- & I). apply in_seq in I. exists i. split; [lia | reflexivity]. }
  destruct (fill_ok (numbered name n) (trial_parameters t) (repeat 0 n)) as [r Hr].
  { intros nm v H. apply (Permutation_in _ P) in H. destruct (IN nm v H) as (i & Hi & ->). exists i. rewrite repeat_length. split; [apply lookup_numbered; assumption | exact Hi]. }
  rewrite Hr. f_equal.
  assert (ND : NoDup (map fst (trial_parameters t))).
  { apply (Permutation_NoDup (l := map fst l)); [apply Permutation_map, Permutation_sym, P|]. rewrite N. apply FinFun.Injective_map_NoDup; [intros i j; apply U | apply seq_NoDup]. }
  destruct (fill_spec _ _ _ _ Hr ND) as (E & A & _).
  { intros k k' i H H'. apply lookup_numbered_inv in H, H'. destruct H as [-> _], H' as [-> _]. reflexivity. }
  rewrite repeat_length in E. apply (nth_ext _ _ 0 0); [rewrite map_length; lia|]. intros i Hi. rewrite E in Hi.
  assert (EN : nth i (map fst l) (name 0%nat) = name i). { rewrite N, map_nth, seq_nth by exact Hi. reflexivity. }
  change (name 0%nat) with (fst (name 0%nat, 0)) in EN. rewrite map_nth in EN. set (nv := nth i l (name 0%nat, 0)) in *.
  assert (I : In nv l) by (apply nth_In; lia). destruct nv as [nm v] eqn:EV. cbn in EN. subst nm.
  apply (Permutation_in _ (Permutation_sym P)) in I. destruct (A _ _ I) as (j & Lj & _ & Vj). apply lookup_numbered_inv in Lj. destruct Lj as [Ej _]. apply U in Ej. subst j. rewrite Vj.
  change 0 with (snd (name 0%nat, 0)). rewrite map_nth. fold nv. rewrite EV. reflexivity.
Qed.
