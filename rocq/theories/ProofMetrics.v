(** The metrics of a clustering count pairs of points. *)
From Coq Require Import Lra.
From Verif Require Import Base XReal Exn TypesCluster ModelResult SpecResult ProofResult.
Local Arguments Rltb : simpl never.
Local Arguments Rleb : simpl never.
Local Arguments Reqb : simpl never.

(** ** Bins *)
Lemma rceil_half (m : Z) : Rceil (IZR m + 1 - - (1 / 2)) = (m + 2)%Z.
Proof.
  apply Rceil_unique. rewrite plus_IZR. lra.
Qed.
Lemma edges_length (m : Z) : List.length (arange (- (1 / 2)) (IZR m + 1)) = Z.to_nat (m + 2).
Proof. unfold arange. rewrite map_length, seq_length, rceil_half. reflexivity. Qed.
Lemma edges_nth (m : Z) i : (i < Z.to_nat (m + 2))%nat -> nth i (arange (- (1 / 2)) (IZR m + 1)) 0 = INR i - 1 / 2.
Proof.
  intros H. unfold arange. rewrite rceil_half. rewrite (nth_indep _ 0 (- (1 / 2) + INR 0)) by (rewrite map_length, seq_length; exact H).
  rewrite (map_nth (fun i => - (1 / 2) + INR i)), seq_nth by exact H. cbn [Nat.add]. lra.
Qed.
Lemma half_gap (a b : Z) : IZR a <= IZR b + 1 / 2 -> (a <= b)%Z.
Proof. intros H. apply Z.lt_succ_r, lt_IZR. unfold Z.succ. rewrite plus_IZR. lra. Qed.
Lemma in_bin_eq (m z : Z) i : (i < Z.to_nat (m + 2) - 1)%nat -> in_bin (arange (- (1 / 2)) (IZR m + 1)) i (IZR z) = (z =? Z.of_nat i)%Z.
Proof.
  intros H. unfold in_bin. rewrite edges_length. rewrite !edges_nth by lia. rewrite S_INR. rewrite !INR_IZR_INZ. set (k := Z.of_nat i).
  destruct (Z.eqb_spec z k) as [->|N].
  - rewrite Rleb_true by lra. rewrite Rltb_true by lra. reflexivity.
  - destruct (Z.lt_ge_cases z k) as [L|L].
    + rewrite Rleb_false; [reflexivity|]. apply Rnot_le_lt. intros X. assert (k <= z)%Z by (apply half_gap; lra). lia.
    + assert (k + 1 <= z)%Z by lia. apply IZR_le in H0. rewrite plus_IZR in H0. rewrite Rltb_false by lra. rewrite Reqb_false by lra. rewrite andb_false_r, orb_false_r. cbn. apply andb_false_r.
Qed.

(** ** Counting *)
Section Count.
  Context {A : Type}.
  Implicit Types (l : list A) (P Q : A -> bool).
  Lemma many_cons P x l : how_many P (x :: l) = ((if P x then 1 else 0) + how_many P l)%Z.
  Proof. unfold how_many. cbn [filter]. destruct (P x); cbn [List.length]; lia. Qed.
  Lemma many_app P l l' : how_many P (l ++ l') = (how_many P l + how_many P l')%Z.
  Proof. unfold how_many. rewrite filter_app, app_length. lia. Qed.
  Lemma many_ext P Q l : (forall x, In x l -> P x = Q x) -> how_many P l = how_many Q l.
  Proof.
    induction l as [|x l IH]; intros H; [reflexivity|]. rewrite !many_cons, (H x) by (left; reflexivity). rewrite IH; [reflexivity|]. intros y Hy. apply H. right. exact Hy.
  Qed.
  Lemma many_nonneg P l : (0 <= how_many P l)%Z.
  Proof. unfold how_many. lia. Qed.
  Lemma many_le P Q l : (forall x, In x l -> P x = true -> Q x = true) -> (how_many P l <= how_many Q l)%Z.
  Proof.
    induction l as [|x l IH]; intros H; [reflexivity|]. rewrite !many_cons. specialize (IH (fun y Hy => H y (or_intror Hy))). specialize (H x (or_introl eq_refl)).
    destruct (P x), (Q x); try lia; discriminate (H eq_refl).
  Qed.
  Lemma many_none P l : (forall x, In x l -> P x = false) -> how_many P l = 0%Z.
  Proof. intros H. induction l as [|x l IH]; [reflexivity|]. rewrite many_cons, (H x) by (left; reflexivity). rewrite IH; [reflexivity|]. intros y Hy. apply H. right. exact Hy. Qed.
  Lemma many_all l : how_many (fun _ => true) l = Z.of_nat (List.length l).
  Proof. induction l as [|x l IH]; [reflexivity|]. rewrite many_cons, IH. cbn [List.length]. lia. Qed.
End Count.
Lemma many_map {A B} (f : A -> B) (P : B -> bool) l : how_many P (map f l) = how_many (fun x => P (f x)) l.
Proof. induction l as [|x l IH]; [reflexivity|]. cbn [map]. rewrite !many_cons, IH. reflexivity. Qed.
Lemma zsum_ext {A} (f g : A -> Z) l : (forall x, In x l -> f x = g x) -> zsum (map f l) = zsum (map g l).
Proof. intros H. f_equal. apply map_ext_in, H. Qed.
Lemma zsum_plus {A} (f g : A -> Z) l : zsum (map (fun x => f x + g x)%Z l) = (zsum (map f l) + zsum (map g l))%Z.
Proof. induction l as [|x l IH]; [reflexivity|]. cbn. unfold zsum in IH. rewrite IH. lia. Qed.
Lemma zsum_le {A} (f g : A -> Z) l : (forall x, In x l -> f x <= g x)%Z -> (zsum (map f l) <= zsum (map g l))%Z.
Proof. induction l as [|x l IH]; intros H; [reflexivity|]. cbn. pose proof (H x (or_introl eq_refl)). specialize (IH (fun y Hy => H y (or_intror Hy))). unfold zsum in IH. lia. Qed.
Lemma zsum_zero {A} (l : list A) : zsum (map (fun _ => 0%Z) l) = 0%Z.
Proof. induction l; [reflexivity | assumption]. Qed.

Section Cells.
  Context {A C : Type} (eqb : C -> C -> bool) (Heq : forall a b, eqb a b = true <-> a = b) (cell : A -> C) (L : list C).
  Hypothesis ND : NoDup L.
  Lemma zsum_delta a (f : C -> Z) : In a L -> zsum (map (fun c => if eqb a c then f c else 0%Z) L) = f a.
  Proof.
    intros HI. induction ND as [|c l Hc Hl IH]; [destruct HI|]. cbn [map zsum fold_right]. fold (zsum (map (fun c => if eqb a c then f c else 0%Z) l)).
    destruct (eqb a c) eqn:E.
    - apply Heq in E. subst c. rewrite (zsum_ext _ (fun _ => 0%Z)); [rewrite zsum_zero; lia|]. intros x Hx. destruct (eqb a x) eqn:E; [apply Heq in E; congruence | reflexivity].
    - destruct HI as [<-|HI]; [|rewrite IH by assumption; reflexivity]. assert (eqb c c = true) by (apply Heq; reflexivity). congruence.
  Qed.
  Lemma cells_sum (Q : A -> bool) l : (forall x, In x l -> In (cell x) L) ->
    zsum (map (fun c => how_many (fun x => eqb (cell x) c && Q x)%bool l) L) = how_many Q l.
  Proof.
    induction l as [|x l IH]; intros H; [rewrite (zsum_ext _ (fun _ => 0%Z)) by reflexivity; apply zsum_zero|].
    rewrite (zsum_ext _ (fun c => (if eqb (cell x) c then (if Q x then 1 else 0) else 0) + how_many (fun x => eqb (cell x) c && Q x)%bool l)%Z).
    - rewrite zsum_plus, IH by (intros y Hy; apply H; right; exact Hy). rewrite (zsum_delta (cell x) (fun _ => if Q x then 1 else 0)%Z) by (apply H; left; reflexivity). rewrite many_cons. reflexivity.
    - intros c _. rewrite many_cons. destruct (eqb (cell x) c); reflexivity.
  Qed.
  Lemma cells_squares l : (forall x, In x l -> In (cell x) L) ->
    zsum (map (fun c => how_many (fun x => eqb (cell x) c) l * how_many (fun x => eqb (cell x) c) l)%Z L) =
    (Z.of_nat (List.length l) + 2 * how_many (fun p => eqb (cell (fst p)) (cell (snd p))) (pairs l))%Z.
  Proof.
    induction l as [|x l IH]; intros H; [rewrite (zsum_ext _ (fun _ => 0%Z)) by reflexivity; apply zsum_zero|].
    set (n := fun c => how_many (fun y => eqb (cell y) c) l).
    rewrite (zsum_ext _ (fun c => (if eqb (cell x) c then 2 * n c + 1 else 0) + n c * n c)%Z).
    - rewrite zsum_plus. unfold n at 2 3. rewrite IH by (intros y Hy; apply H; right; exact Hy). rewrite (zsum_delta (cell x) (fun c => 2 * n c + 1)%Z) by (apply H; left; reflexivity).
      cbn [pairs]. rewrite many_app, many_map. cbn [fst snd]. rewrite (many_ext (fun y => eqb (cell x) (cell y)) (fun y => eqb (cell y) (cell x))).
      + unfold n. cbn [List.length]. lia.
      + intros y _. destruct (eqb (cell x) (cell y)) eqn:E1, (eqb (cell y) (cell x)) eqn:E2; try reflexivity; [apply Heq in E1; rewrite E1 in E2 | apply Heq in E2; rewrite E2 in E1]; assert (eqb (cell y) (cell y) = true) by (apply Heq; reflexivity); assert (eqb (cell x) (cell x) = true) by (apply Heq; reflexivity); congruence.
    - intros c _. unfold n. rewrite many_cons. destruct (eqb (cell x) c); ring.
  Qed.
End Cells.
Lemma concat_prod {A B C} (g : A -> B -> C) la lb : concat (map (fun i => map (g i) lb) la) = map (fun p => g (fst p) (snd p)) (list_prod la lb).
Proof. induction la as [|a la IH]; [reflexivity|]. cbn [map concat list_prod]. rewrite IH, map_app, map_map. reflexivity. Qed.

(** ** np.max *)
Lemma fold_max l : forall x, (fold_left Z.max l x = x \/ In (fold_left Z.max l x) l) /\ (x <= fold_left Z.max l x)%Z /\ forall y, In y l -> (y <= fold_left Z.max l x)%Z.
Proof.
  induction l as [|a l IH]; intros x; cbn [fold_left]; [repeat split; [left; reflexivity | lia | intros y []]|].
  destruct (IH (Z.max x a)) as (A & B & C). split; [|split; [lia|]].
  - destruct A as [A|A]; [|right; right; exact A]. rewrite A. destruct (Z.max_spec x a) as [[_ ->]|[_ ->]]; [right; left; reflexivity | left; reflexivity].
  - intros y [<-|Hy]; [lia | apply C, Hy].
Qed.
Lemma np_max_ok l m : np_max l = Ok m -> In m l /\ forall x, In x l -> (x <= m)%Z.
Proof.
  destruct l as [|x l]; [discriminate|]. cbn [np_max]. intros [= <-]. destruct (fold_max l x) as (A & B & C). split.
  - destruct A as [A|A]; [left; congruence | right; exact A].
  - intros y [<-|Hy]; [exact B | apply C, Hy].
Qed.
Lemma np_max_some l : l <> [] -> exists m, np_max l = Ok m.
Proof. destruct l; [congruence | intros _; eexists; reflexivity]. Qed.

(** ** Pairs *)
Lemma pairs_in {A} (l : list A) p q : In (p, q) (pairs l) -> In p l /\ In q l.
Proof.
  induction l as [|x l IH]; [intros []|]. cbn [pairs]. intros H. apply in_app_or in H as [H|H].
  - apply in_map_iff in H as (y & [= -> ->] & H). split; [left; reflexivity | right; exact H].
  - apply IH in H as [H1 H2]. split; right; assumption.
Qed.
Lemma pairs_length {A} (l : list A) : (2 * Z.of_nat (List.length (pairs l)) = Z.of_nat (List.length l) * (Z.of_nat (List.length l) - 1))%Z.
Proof. induction l as [|x l IH]; [reflexivity|]. cbn [pairs List.length]. rewrite app_length, map_length, Nat2Z.inj_add, Nat2Z.inj_succ. unfold Z.succ. rewrite Z.mul_add_distr_l, IH. ring. Qed.
Lemma many_not {A} (P Q : A -> bool) l : (how_many (fun x => P x && negb (Q x)) l + how_many (fun x => P x && Q x) l)%Z%bool = how_many P l.
Proof. induction l as [|x l IH]; [reflexivity|]. rewrite !many_cons, <- IH. destruct (P x), (Q x); cbn [andb negb]; ring. Qed.
Lemma NoDup_app_intro_local {A} (l l' : list A) : NoDup l -> NoDup l' -> (forall x, In x l -> In x l' -> False) -> NoDup (l ++ l').
Proof.
  intros H H' D. induction H as [|x l Hx H IH]; [exact H'|]. cbn. constructor.
  - intros X. apply in_app_or in X as [X|X]; [exact (Hx X) | exact (D x (or_introl eq_refl) X)].
  - apply IH. intros y Hy. apply D. right. exact Hy.
Qed.
