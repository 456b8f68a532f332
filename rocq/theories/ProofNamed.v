(** Events survive the conversion to named tuples and back. *)
From Verif Require Import Base Exn TypesEvent TypesNamed ModelNamed SpecNamed.

Section Ind.
  Context (P : pyvalue -> Prop).
  Hypothesis HN : forall n, P (VNum n).
  Hypothesis HS : forall s, P (VStr s).
  Hypothesis HL : forall t l, Forall P l -> P (VSeq t l).
  Hypothesis HM : forall l, Forall (fun kv => P (snd kv)) l -> P (VMap l).
  Hypothesis HO : forall c vs, Forall P vs -> P (VObj c vs).
  Hypothesis HT : forall m n fs, Forall (fun kv => P (snd kv)) fs -> P (VNamed m n fs).
  Fixpoint value_ind' (v : pyvalue) : P v :=
    let many := (fix many (l : list pyvalue) : Forall P l :=
      match l with [] => Forall_nil P | x :: l => Forall_cons x (value_ind' x) (many l) end) in
    let pairs := (fix pairs (l : list (string * pyvalue)) : Forall (fun kv => P (snd kv)) l :=
      match l with [] => Forall_nil _ | x :: l => Forall_cons x (value_ind' (snd x)) (pairs l) end) in
    match v with
    | VNum n => HN n | VStr s => HS s
    | VSeq t l => HL t l (many l) | VMap l => HM l (pairs l)
    | VObj c vs => HO c vs (many vs) | VNamed m n fs => HT m n fs (pairs fs)
    end.
End Ind.

Lemma all_Forall {A} (P : A -> Prop) l : all P l <-> Forall P l.
Proof.
  induction l as [|x l IH]; cbn; [split; auto|]. fold (all P l). rewrite IH. split; [intros []; constructor; auto | intros H; inversion H; auto].
Qed.

Definition to_field (f : pyvalue) : res pyvalue :=
  match f with
  | VObj _ _ => to_named_tuple f
  | VMap l => let? l := rmap (fun kv => let? w := to_named_tuple (snd kv) in Ok (fst kv, w)) l in Ok (VMap l)
  | VSeq t l => let? l := rmap to_named_tuple l in Ok (VSeq t l)
  | VStr s => Ok (VStr (str_of_list s))
  | VNamed _ _ _ => Err TypeError
  | VNum _ => Ok f
  end.
Lemma to_obj c vs : to_named_tuple (VObj c vs) =
  if negb (cls_event c) then Err AttributeError else
  if known_error c then Err ValueError else
  if existsb reserved (names c) then Err ValueError else
  let? ws := rmap to_field vs in Ok (VNamed (cls_module c) (cls_name c) (combine (names c) ws)).
Proof. reflexivity. Qed.

Lemma rmap_ext {A B} (f g : A -> res B) l : (forall x, f x = g x) -> rmap f l = rmap g l.
Proof. intros H. induction l as [|x l IH]; cbn [rmap]; [reflexivity|]. rewrite H, IH. reflexivity. Qed.

Section Trip.
  Context (lookup : string -> string -> option cls).
  Let from := from_named_tuple lookup.
  Definition from_field (f : pyvalue) : res pyvalue :=
    match f with
    | VNamed _ _ _ => from f
    | VMap l => let? l := rmap (fun kv => let? w := from (snd kv) in Ok (fst kv, w)) l in Ok (VMap l)
    | VSeq t l => let? l := rmap from l in Ok (VSeq t l)
    | VStr s => Ok (VStr (str_of_list s))
    | f => Ok f
    end.
  Lemma from_named m n fs : from (VNamed m n fs) =
    let? kvs := rmap (fun kf => let? w := from_field (snd kf) in Ok (fst kf, w)) fs in
    match lookup m n with None => Err AttributeError | Some c => construct c kvs end.
  Proof. unfold from. cbn [from_named_tuple]. f_equal. apply rmap_ext. intros [k []]; reflexivity. Qed.

  Definition field_ok (f : pyvalue) : Prop :=
    match f with
    | VNum _ => True
    | VSeq _ l => all (element_ok lookup) l
    | VMap l => all (fun kv => element_ok lookup (snd kv)) l
    | VObj _ _ => element_ok lookup f
    | VStr _ | VNamed _ _ _ => False
    end.
  Definition elem_trips (v : pyvalue) : Prop := element_ok lookup v -> exists w, to_named_tuple v = Ok w /\ from w = Ok v.
  Definition field_trips (f : pyvalue) : Prop := field_ok f -> exists w, to_field f = Ok w /\ from_field w = Ok f.

  Lemma rmap_trips {A B} (P : A -> Prop) (f : A -> res B) (g : B -> res A) l :
    Forall (fun x => P x -> exists w, f x = Ok w /\ g w = Ok x) l -> Forall P l ->
    exists ws, rmap f l = Ok ws /\ rmap g ws = Ok l.
  Proof.
    induction 1 as [|x l H _ IH]; intros HP; [exists []; auto|]. inversion HP; subst.
    destruct (H ltac:(assumption)) as (w & E1 & E2). destruct (IH ltac:(assumption)) as (ws & F1 & F2).
    exists (w :: ws). cbn [rmap]. rewrite E1, F1. cbn [bind]. rewrite E2, F2. auto.
  Qed.
  Lemma rmap_length {A B} (f : A -> res B) l ws : rmap f l = Ok ws -> List.length ws = List.length l.
  Proof.
    revert ws. induction l as [|x l IH]; intros ws; cbn [rmap]; [intros [= <-]; reflexivity|].
    intros H. apply bind_Ok in H. destruct H as (y & _ & H). apply bind_Ok in H. destruct H as (ys & E & H). injection H as <-. cbn. f_equal. auto.
  Qed.
  Lemma rmap_combine (g : pyvalue -> res pyvalue) (ks : list string) ws vs : List.length ks = List.length ws -> rmap g ws = Ok vs ->
    rmap (fun kf : string * pyvalue => let? w := g (snd kf) in Ok (fst kf, w)) (combine ks ws) = Ok (combine ks vs).
  Proof.
    revert ks vs. induction ws as [|w ws IH]; intros [|k ks] vs HL; try discriminate; cbn [rmap combine].
    - intros [= <-]. reflexivity.
    - intros H. apply bind_Ok in H. destruct H as (y & E & H). apply bind_Ok in H. destruct H as (ys & E2 & H). injection H as <-.
      cbn [fst snd]. rewrite E. cbn [bind]. rewrite (IH ks ys) by (auto; cbn in HL; lia). reflexivity.
  Qed.

  Lemma usable_ok c : usable lookup c -> known_error c = false /\ existsb reserved (names c) = false.
  Proof.
    intros (_ & _ & _ & H). unfold known_error, names. split.
    - destruct (existsb _ _) eqn:E; [|reflexivity]. apply existsb_exists in E. destruct E as ([f i] & Hin & B). exfalso.
      destruct (H f i Hin) as (-> & P & _). cbn [fst snd negb] in B. rewrite Bool.orb_false_r in B. destruct f as [|a s]; [discriminate|].
      cbn in B. apply Ascii.eqb_eq in B. subst a. exact (P s eq_refl).
    - destruct (existsb _ _) eqn:E; [|reflexivity]. apply existsb_exists in E. destruct E as (f & Hin & B). exfalso.
      apply in_map_iff in Hin. destruct Hin as ([f' i] & <- & Hin). destruct (H f' i Hin) as (_ & _ & N1 & N2). cbn [fst] in B.
      unfold reserved in B. apply Bool.orb_true_iff in B. destruct B as [B|B]; apply String.eqb_eq in B; contradiction.
  Qed.
  Lemma assoc_combine ks vs k v : NoDup ks -> In (k, v) (combine ks vs) -> assoc k (combine ks vs) = Some v.
  Proof.
    revert vs. induction ks as [|k0 ks IH]; intros [|v0 vs] ND; cbn [combine In assoc]; try tauto. inversion ND; subst. intros [[= -> ->]|H].
    - rewrite String.eqb_refl. reflexivity.
    - destruct (String.eqb_spec k0 k) as [->|]; [|auto]. exfalso. apply in_combine_l in H. contradiction.
  Qed.
  Lemma fetch_all kvs : forall ks vs, List.length ks = List.length vs -> (forall k v, In (k, v) (combine ks vs) -> assoc k kvs = Some v) -> fetch ks kvs = Ok vs.
  Proof.
    induction ks as [|k ks IH]; intros [|v vs] HL H; try discriminate; [reflexivity|]. cbn [fetch]. rewrite (H k v) by (left; reflexivity).
    rewrite (IH vs); [reflexivity | cbn in HL; lia | intros; apply H; right; assumption].
  Qed.
  Lemma construct_ok c vs : usable lookup c -> List.length vs = List.length (cls_fields c) -> construct c (combine (names c) vs) = Ok (VObj c vs).
  Proof.
    intros U HL. destruct (usable_ok c U) as [K _]. unfold construct. rewrite K.
    assert (HN : List.length (names c) = List.length vs) by (unfold names; rewrite map_length; congruence).
    replace (forallb _ _) with true.
    - cbn [negb]. rewrite (fetch_all _ (names c) vs HN); [reflexivity|]. intros k v. apply assoc_combine. apply U.
    - symmetry. apply forallb_forall. intros [k v] H. unfold known_name. apply existsb_exists. exists k. split; [eapply in_combine_l; exact H | apply String.eqb_refl].
  Qed.

  Lemma trips v : elem_trips v /\ field_trips v.
  Proof.
    induction v as [n|s|t l IH|l IH|c vs IH|m n fs IH] using value_ind'.
    - split; intros H; eexists; split; reflexivity.
    - split; intros H; [eexists; split; reflexivity | contradiction].
    - split; intros H; [eexists; split; reflexivity|]. cbn [field_ok] in H. apply all_Forall in H.
      destruct (rmap_trips (element_ok lookup) to_named_tuple from l) as (ws & E1 & E2); [|exact H|].
      + eapply Forall_impl; [|exact IH]. intros x [Hx _]. exact Hx.
      + exists (VSeq t ws). cbn [to_field from_field]. rewrite E1, E2. auto.
    - split; intros H; [eexists; split; reflexivity|]. cbn [field_ok] in H. apply all_Forall in H.
      destruct (rmap_trips (fun kv => element_ok lookup (snd kv)) (fun kv => let? w := to_named_tuple (snd kv) in Ok (fst kv, w))
        (fun kv => let? w := from (snd kv) in Ok (fst kv, w)) l) as (ws & E1 & E2); [|exact H|].
      + eapply Forall_impl; [|exact IH]. intros [k x] [Hx _] HK. cbn [fst snd] in *. destruct (Hx HK) as (w & F1 & F2).
        exists (k, w). rewrite F1. cbn [bind fst snd]. rewrite F2. auto.
      + exists (VMap ws). cbn [to_field from_field]. rewrite E1, E2. auto.
    - assert (T : elem_trips (VObj c vs)).
      { intros (U & HL & H). change (all field_ok vs) in H. apply all_Forall in H.
        destruct (rmap_trips field_ok to_field from_field vs) as (ws & E1 & E2); [|exact H|].
        { eapply Forall_impl; [|exact IH]. intros x [_ Hx]. exact Hx. }
        pose proof (rmap_length _ _ _ E1) as L. destruct (usable_ok c U) as [K R]. pose proof U as (LK & EV & _).
        rewrite to_obj, EV, K, R, E1. cbn [negb bind]. eexists. split; [reflexivity|]. rewrite from_named.
        rewrite (rmap_combine from_field (names c) ws vs) by (auto; unfold names; rewrite map_length; congruence). cbn [bind].
        rewrite LK. apply construct_ok; assumption. }
      split; [exact T|]. intros H. destruct (T H) as (w & E1 & E2). exists w. split; [exact E1|].
      rewrite to_obj in E1. destruct (negb _); [discriminate|]. destruct (known_error c); [discriminate|]. destruct (existsb _ _); [discriminate|].
      apply bind_Ok in E1. destruct E1 as (ws & _ & [= <-]). exact E2.
    - split; intros [].
  Qed.
  Lemma round_trip_generic v : convertible lookup v -> exists t, to_named_tuple v = Ok t /\ from_named_tuple lookup t = Ok v.
  Proof. intros [_ H]. apply (proj1 (trips v) H). Qed.
End Trip.

(** ** The classes of dp_event.py *)
Lemma event_class_usable lookup c : (forall c, In c event_classes -> lookup (cls_module c) (cls_name c) = Some c) ->
  In c event_classes -> usable lookup c.
Proof.
  intros HL Hc. split; [apply HL, Hc|].
  assert (HN : forall l, (fix nd (l : list string) := match l with [] => true | x :: l => negb (existsb (String.eqb x) l) && nd l end) l = true -> NoDup l).
  { clear. induction l as [|x l IH]; intros H; constructor; apply andb_prop in H; destruct H as [H1 H2]; [|apply IH, H2].
    intros Hin. rewrite (proj2 (existsb_exists _ _)) in H1; [discriminate|]. exists x. split; [assumption | apply String.eqb_refl]. }
  unfold event_classes in Hc. cbn [In] in Hc.
  repeat (destruct Hc as [<-|Hc]; [split; [reflexivity|]; split; [apply HN; reflexivity|]; cbn [event_cls cls_fields map In]; intros f i H;
    repeat (destruct H as [[= <- <-]|H]; [split; [reflexivity|]; split; [intros s; discriminate | split; discriminate]|]); contradiction|]).
  contradiction.
Qed.
Lemma event_element lookup e : (forall c, In c event_classes -> lookup (cls_module c) (cls_name c) = Some c) -> element_ok lookup (as_object e).
Proof.
  intros HL. pose proof (fun c => event_class_usable lookup c HL) as U.
  assert (OBJ : forall e, exists c vs, as_object e = VObj c vs) by (intros []; do 2 eexists; reflexivity).
  assert (FLD : forall e, element_ok lookup (as_object e) -> field_ok lookup (as_object e)).
  { intros e0 H. destruct (OBJ e0) as (c & vs & E). rewrite E in *. exact H. }
  assert (NUM : forall {A} (f : A -> num) l, all (element_ok lookup) (map (fun x => VNum (f x)) l)) by (intros A f l; induction l; cbn; auto).
  induction e as [| | |p k|s|s|e c IH|es IH|q e IH|a b e IH|a b e IH|s c|e m s IH|s a b] using event_ind'; cbn [as_object element_ok];
    (split; [apply U; unfold event_classes; cbn [In]; tauto | split; [reflexivity|]]);
    (match goal with |- all _ ?l => change (all (field_ok lookup) l) end); cbn [all fold_right];
    try solve [repeat split; try exact Logic.I; apply FLD, IH].
  - split; [|exact Logic.I]. cbn [field_ok]. apply all_Forall, Forall_map, IH.
  - destruct c as [n|l]; cbn [field_ok]; [|split; [auto|]; split; [|auto]; apply (NUM Z PyInt)]; cbn; auto.
  - split; [exact Logic.I|]. split; [apply (NUM num (fun x => x))|]. split; [apply (NUM num (fun x => x)) | auto].
Qed.
Lemma round_trip_events lookup e : (forall c, In c event_classes -> lookup (cls_module c) (cls_name c) = Some c) ->
  exists t, to_named_tuple (as_object e) = Ok t /\ from_named_tuple lookup t = Ok (as_object e).
Proof. intros HL. apply (proj1 (trips lookup (as_object e))). apply event_element, HL. Qed.

(** the named tuples contain no objects *)
Lemma rmap_Forall {A B} (f : A -> res B) (P : B -> Prop) l ws : Forall (fun x => forall w, f x = Ok w -> P w) l -> rmap f l = Ok ws -> Forall P ws.
Proof.
  intros H. revert ws. induction H as [|x l Hx _ IH]; intros ws; cbn [rmap]; [intros [= <-]; constructor|].
  intros E. apply bind_Ok in E. destruct E as (y & E1 & E). apply bind_Ok in E. destruct E as (ys & E2 & E). injection E as <-. constructor; auto.
Qed.
Lemma event_plain e t : to_named_tuple (as_object e) = Ok t -> plain t.
Proof.
  assert (OBJ : forall c vs t, Forall (fun f => forall w, to_field f = Ok w -> plain w) vs -> to_named_tuple (VObj c vs) = Ok t -> plain t).
  { clear. intros c vs t H. rewrite to_obj. destruct (negb _); [discriminate|]. destruct (known_error c); [discriminate|]. destruct (existsb _ _); [discriminate|].
    intros E. apply bind_Ok in E. destruct E as (ws & E & [= <-]). cbn [plain]. apply all_Forall. apply (rmap_Forall to_field plain) in E; [|exact H].
    generalize (names c). clear -E. induction E as [|w ws Hw _ IH]; intros [|k ks]; cbn [combine]; constructor; auto. }
  assert (FN : forall n w, to_field (VNum n) = Ok w -> plain w) by (intros n w [= <-]; exact Logic.I).
  assert (FE : forall e, (forall t, to_named_tuple (as_object e) = Ok t -> plain t) -> forall w, to_field (as_object e) = Ok w -> plain w).
  { intros e0 H w. replace (to_field (as_object e0)) with (to_named_tuple (as_object e0)) by (destruct e0; reflexivity). apply H. }
  assert (FL : forall l, Forall (fun v => forall w, to_named_tuple v = Ok w -> plain w) l -> forall w, to_field (VSeq PyList l) = Ok w -> plain w).
  { intros l H w E. cbn [to_field] in E. apply bind_Ok in E. destruct E as (ws & E & [= <-]). cbn [plain]. apply all_Forall. eapply rmap_Forall; eassumption. }
  assert (FNS : forall {A} (f : A -> num) l w, to_field (VSeq PyList (map (fun x => VNum (f x)) l)) = Ok w -> plain w).
  { intros A f l. apply FL. apply Forall_map, Forall_forall. intros x _ w [= <-]. exact Logic.I. }
  revert t. induction e as [| | |p k|s|s|e c IH|es IH|q e IH|a b e IH|a b e IH|s c|e m s IH|s a b] using event_ind'; intros t; cbn [as_object]; apply OBJ;
    repeat (apply Forall_cons || apply Forall_nil); auto; try (apply FN); try (apply FE, IH).
  - apply FL, Forall_map, IH.
  - destruct c; [apply FN | apply (FNS Z PyInt)].
  - apply (FNS num (fun x => x)).
  - apply (FNS num (fun x => x)).
Qed.

(** different events are different objects *)
Lemma map_inj {A B} (f : A -> B) l l' : Forall (fun x => forall y, f x = f y -> x = y) l -> map f l = map f l' -> l = l'.
Proof.
  intros H. revert l'. induction H as [|x l Hx _ IH]; intros [|y l']; cbn; try discriminate; [reflexivity|]. intros [= E1 E2]. f_equal; auto.
Qed.
Lemma as_object_inj e e' : as_object e = as_object e' -> e = e'.
Proof.
  assert (NI : forall {A} (f : A -> pyvalue), (forall x y, f x = f y -> x = y) -> forall l l', map f l = map f l' -> l = l').
  { intros A f H l l'. apply map_inj, Forall_forall. auto. }
  assert (IV : forall x y, int_value x = int_value y -> x = y) by (intros x y [= ->]; reflexivity).
  revert e'. induction e as [| | |p k|s|s|e c IH|es IH|q e IH|a b e IH|a b e IH|s c|e m s IH|s a b] using event_ind'; intros [];
    cbn [as_object]; intros H; try discriminate; try reflexivity; injection H; intros; subst; try (f_equal; auto; fail).
  - f_equal. apply (map_inj as_object); assumption.
  - f_equal. destruct c, step_counts; try discriminate; f_equal.
    + match goal with E : int_value _ = int_value _ |- _ => apply IV, E end.
    + match goal with E : VSeq _ _ = VSeq _ _ |- _ => injection E as E; apply (NI Z int_value IV), E end.
  - f_equal; apply (NI num VNum); try assumption; intros x y [= ->]; reflexivity.
Qed.

(** ** Classes that cannot be converted *)
Lemma unusable_raises c vs : cls_event c = true ->
  (exists f init, In (f, init) (cls_fields c) /\ (init = false \/ (exists s, f = String "_" s) \/ f = "module_name" \/ f = "class_name")) ->
  to_named_tuple (VObj c vs) = Err ValueError.
Proof.
  intros EV (f & i & Hin & D). rewrite to_obj, EV. cbn [negb]. destruct (known_error c) eqn:K; [reflexivity|].
  assert (R : existsb reserved (names c) = true); [|rewrite R; reflexivity].
  apply existsb_exists. exists f. split; [apply in_map_iff; exists (f, i); auto|]. unfold known_error in K.
  assert (B : private_name f || negb i = false).
  { destruct (private_name f || negb i) eqn:B; [|reflexivity]. rewrite <- K. symmetry. apply existsb_exists. exists (f, i). auto. }
  apply Bool.orb_false_iff in B. destruct B as [B1 B2]. destruct D as [->|[[s ->]|[->| ->]]]; try discriminate; reflexivity.
Qed.

(** ** Attributes that are strings *)
Definition text_class : cls := mkCls "user" "TextDpEvent" true [("text", true)].
Definition text_lookup (m n : string) : option cls := if String.eqb n "TextDpEvent" then Some text_class else None.
Lemma text_usable : usable text_lookup text_class.
Proof.
  split; [reflexivity|]. split; [reflexivity|]. split; [repeat constructor; cbn; tauto|]. intros f i [[= <- <-]|[]].
  split; [reflexivity|]. split; [intros; discriminate | split; discriminate].
Qed.
Lemma text_lost :
  to_named_tuple (VObj text_class [VStr "ab"]) = Ok (VNamed "user" "TextDpEvent" [("text", VStr "['a', 'b']")]) /\
  from_named_tuple text_lookup (VNamed "user" "TextDpEvent" [("text", VStr "['a', 'b']")]) <> Ok (VObj text_class [VStr "ab"]).
Proof. split; [reflexivity | discriminate]. Qed.
Lemma text_refuted : ~ (forall lookup c vs, usable lookup c -> List.length vs = List.length (cls_fields c) ->
  (forall v, In v vs -> exists s, v = VStr s) ->
  exists t, to_named_tuple (VObj c vs) = Ok t /\ from_named_tuple lookup t = Ok (VObj c vs)).
Proof.
  intros H. destruct (H text_lookup text_class [VStr "ab"] text_usable eq_refl) as (t & E1 & E2).
  - intros v [<-|[]]. eauto.
  - destruct text_lost as [A B]. rewrite A in E1. injection E1 as <-. contradiction.
Qed.

(** ** Instances *)
Definition event_lookup (m n : string) : option cls :=
  find (fun c => String.eqb (cls_module c) m && String.eqb (cls_name c) n) event_classes.
Lemma event_lookup_ok c : In c event_classes -> event_lookup (cls_module c) (cls_name c) = Some c.
Proof. unfold event_classes. cbn [In]. intros H. repeat (destruct H as [<-|H]; [reflexivity|]). contradiction. Qed.
Definition sample_event : event num := Composed [SelfComposed (PoissonSampled (PyFloat (1/2)) (Gaussian (PyInt 1))) 3; TreeAggregation (PyFloat 2) (Trees [4%Z; 5%Z]); NoOp].
Definition user_event : pyvalue :=
  VObj (mkCls "user" "MyDpEvent" true [("parts", true); ("options", true)])
    [VSeq PyTuple [as_object sample_event; VStr "note"]; VMap [("inner", as_object NoOp); ("size", VNum (PyInt 3))]].
Definition user_lookup (m n : string) : option cls :=
  if String.eqb n "MyDpEvent" then Some (mkCls "user" "MyDpEvent" true [("parts", true); ("options", true)]) else event_lookup m n.
Lemma user_example : convertible user_lookup user_event.
Proof.
  assert (HL : forall c, In c event_classes -> user_lookup (cls_module c) (cls_name c) = Some c).
  { unfold event_classes. cbn [In]. intros c H. repeat (destruct H as [<-|H]; [reflexivity|]). contradiction. }
  split; [do 2 eexists; reflexivity|]. cbn [user_event element_ok]. split; [|split; [reflexivity|]].
  - split; [reflexivity|]. split; [reflexivity|]. split; [repeat constructor; cbn; intuition discriminate|].
    intros f i [[= <- <-]|[[= <- <-]|[]]]; (split; [reflexivity|]; split; [intros; discriminate | split; discriminate]).
  - assert (HE : forall e, element_ok user_lookup (as_object e)) by (intros e; apply event_element, HL).
    cbn [all]. split; [|split; [|exact Logic.I]].
    + split; [apply HE|]. split; [exact Logic.I | exact Logic.I].
    + split; [apply HE|]. split; [exact Logic.I | exact Logic.I].
Qed.
Lemma events_example : (forall c, In c event_classes -> event_lookup (cls_module c) (cls_name c) = Some c) /\
  to_named_tuple (as_object (SelfComposed (Gaussian (PyInt 1)) 3)) =
    Ok (VNamed "dp_accounting.dp_event" "SelfComposedDpEvent"
      [("event", VNamed "dp_accounting.dp_event" "GaussianDpEvent" [("noise_multiplier", VNum (PyInt 1))]); ("count", VNum (PyInt 3))]).
Proof. split; [apply event_lookup_ok | reflexivity]. Qed.
Lemma raises_example : exists c, cls_event c = true /\
  (exists f init, In (f, init) (cls_fields c) /\ (init = false \/ (exists s, f = String "_" s) \/ f = "module_name" \/ f = "class_name")).
Proof.
  exists (mkCls "user" "Secret" true [("x", true); ("_y", true)]). split; [reflexivity|]. exists "_y", true. split; [right; left; reflexivity|].
  right. left. exists "y". reflexivity.
Qed.
