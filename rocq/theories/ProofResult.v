(** The labels and the loss of a clustering, and its metrics. *)
From Coq Require Import Lra.
From Verif Require Import Base XReal Exn TypesCluster ModelResult SpecResult.
Local Arguments Rltb : simpl never.
Local Arguments Rleb : simpl never.
Local Arguments Reqb : simpl never.

(** ** Distances *)
Lemma rsum_map {A B} (f : B -> R) (g : A -> B) l : rsum f (map g l) = rsum (fun x => f (g x)) l.
Proof. induction l as [|x l IH]; [reflexivity|]. cbn. rewrite IH. reflexivity. Qed.
Lemma distance_coords u v : List.length u = List.length v -> sq_norm (vsub u v) = distance2 (List.length u) u v.
Proof.
  unfold sq_norm, vsub, distance2. revert v. induction u as [|a u IH]; intros [|b v] H; try discriminate; [reflexivity|]. injection H as H.
  cbn [combine map rsum fst snd List.length seq nth]. rewrite IH by exact H. rewrite <- seq_shift, rsum_map. cbn [nth]. ring.
Qed.

(** ** The closest center *)
Lemma argmin_spec l : forall best at_best next i v, argmin_from best at_best next l = (i, v) ->
  (v = best /\ i = at_best /\ (forall k, (k < List.length l)%nat -> best <= nth k l 0)) \/
  (exists k, (k < List.length l)%nat /\ i = (next + Z.of_nat k)%Z /\ v = nth k l 0 /\ v < best /\
    (forall k', (k' < List.length l)%nat -> v <= nth k' l 0) /\ (forall k', (k' < k)%nat -> v < nth k' l 0)).
Proof.
  induction l as [|x l IH]; intros best ab next i v H; cbn [argmin_from] in H.
  - injection H as <- <-. left. repeat split. intros k Hk. cbn in Hk. lia.
  - unfold Rltb in H. destruct (Rlt_dec x best) as [X|X]; apply IH in H.
    + right. destruct H as [(-> & -> & M)|(k & Hk & -> & E & L & M & F)].
      * exists 0%nat. cbn [nth List.length]. repeat split; try lia; try lra. intros [|k'] Hk'; [cbn; lra | apply M; cbn in Hk'; lia].
      * exists (S k). cbn [nth List.length]. repeat split; try lia; try assumption; try lra; intros [|k'] Hk'; cbn [nth]; try lra; [apply M | apply F]; cbn in Hk'; lia.
    + destruct H as [(-> & -> & M)|(k & Hk & -> & E & L & M & F)].
      * left. repeat split. intros [|k'] Hk'; [cbn; lra | apply M; cbn in Hk'; lia].
      * right. exists (S k). cbn [nth List.length]. repeat split; try lia; try assumption; intros [|k'] Hk'; cbn [nth]; try lra; [apply M | apply F]; cbn in Hk'; lia.
Qed.
Lemma argmin_ok l i v : argmin l = Ok (i, v) ->
  exists k, i = Z.of_nat k /\ (k < List.length l)%nat /\ v = nth k l 0 /\ (forall k', (k' < List.length l)%nat -> v <= nth k' l 0) /\ (forall k', (k' < k)%nat -> v < nth k' l 0).
Proof.
  destruct l as [|x l]; [discriminate|]. cbn [argmin]. intros [= H]. apply argmin_spec in H. destruct H as [(-> & -> & M)|(k & Hk & -> & E & L & M & F)].
  - exists 0%nat. cbn [nth List.length]. repeat split; try lia. intros [|k'] Hk'; [cbn; lra | apply M; cbn in Hk'; lia].
  - exists (S k). cbn [nth List.length]. repeat split; try lia; try assumption; intros [|k'] Hk'; cbn [nth]; try lra; [apply M | apply F]; cbn in Hk'; lia.
Qed.
Lemma to_center_nth c x k : well_shaped c -> cols c = List.length x -> (k < num_rows c)%nat ->
  nth k (map (fun u => sq_norm (vsub u x)) (rows c)) 0 = to_center c x (Z.of_nat k).
Proof.
  intros W D H. unfold to_center. rewrite Nat2Z.id. rewrite (nth_indep _ 0 (sq_norm (vsub [] x))) by (rewrite map_length; exact H). rewrite (map_nth (fun u => sq_norm (vsub u x))).
  assert (L : List.length (nth k (rows c) []) = cols c). { unfold well_shaped in W. rewrite Forall_forall in W. apply W, nth_In, H. }
  rewrite distance_coords by congruence. rewrite L. reflexivity.
Qed.
Lemma closest_ok c x i v : well_shaped c -> closest_center c x = Ok (i, v) -> List.length x = cols c /\ closest c x i /\ v = to_center c x i.
Proof.
  unfold closest_center. intros W. destruct (Nat.eqb_spec (cols c) (List.length x)) as [D|]; [|discriminate]. intros H. apply argmin_ok in H. destruct H as (k & -> & Hk & Ev & M & F).
  rewrite map_length in Hk, M. fold (num_rows c) in *. rewrite to_center_nth in Ev by assumption. split; [symmetry; exact D|]. split; [|exact Ev]. split; [unfold is_label; lia|]. split.
  - intros j Hj. unfold is_label in Hj. specialize (M (Z.to_nat j) ltac:(lia)). rewrite to_center_nth, Z2Nat.id in M by (assumption || lia). lra.
  - intros j Hj. specialize (F (Z.to_nat j) ltac:(lia)). rewrite to_center_nth, Z2Nat.id in F by (assumption || lia). lra.
Qed.
Lemma closest_runs c x : List.length x = cols c -> rows c <> [] -> exists i v, closest_center c x = Ok (i, v).
Proof.
  intros D N. unfold closest_center. rewrite D, Nat.eqb_refl. destruct (rows c) as [|u l]; [congruence|]. cbn [map argmin]. destruct (argmin_from _ _ _ _) as [i v]. eauto.
Qed.
Lemma all_closest c pts r : well_shaped c -> map_res (closest_center c) pts = Ok r ->
  Forall2 (closest c) pts (map fst r) /\ rsum snd r = cost c pts (map fst r) /\ Forall (fun x => List.length x = cols c) pts.
Proof.
  intros W. revert r. induction pts as [|x pts IH]; intros r; cbn [map_res].
  - intros [= <-]. split; [constructor|]. split; [reflexivity | constructor].
  - destruct (closest_center c x) as [[i v]|] eqn:Ex; [|discriminate]. cbn [bind]. destruct (map_res (closest_center c) pts) as [r'|]; [|discriminate]. cbn [bind]. intros [= <-].
    destruct (IH r' eq_refl) as (A & B & C). destruct (closest_ok c x i v W Ex) as (L & CL & ->). cbn [map fst]. split; [constructor; assumption|]. split; [|constructor; assumption].
    unfold cost in *. cbn [combine rsum fst snd]. rewrite B. reflexivity.
Qed.
Lemma cost_minimal c pts ls other : Forall2 (closest c) pts ls -> List.length other = List.length pts -> Forall (is_label c) other -> cost c pts ls <= cost c pts other.
Proof.
  intros F. revert other. induction F as [|x i pts ls (Hi & Mi & _) F IH]; intros other L A; unfold cost in *; cbn [combine rsum].
  - lra.
  - destruct other as [|j other]; [discriminate|]. injection L as L. inversion A; subst. cbn [combine rsum fst snd]. specialize (IH other L H2). specialize (Mi j H1). lra.
Qed.

(** ** The result *)
Lemma result_computed d c r : well_shaped c -> new_result d c None None = Ok r ->
  of_data r = d /\ centers r = c /\ Forall2 (closest c) (rows (datapoints d)) (labels r) /\
  loss r = cost c (rows (datapoints d)) (labels r) /\
  forall other, List.length other = num_rows (datapoints d) -> Forall (is_label c) other -> loss r <= cost c (rows (datapoints d)) other.
Proof.
  intros W. unfold new_result. destruct (map_res (closest_center c) (rows (datapoints d))) as [l|] eqn:E; [|discriminate]. cbn [bind].
  destruct (negb (Nat.eqb (num_rows (datapoints d)) _)); [discriminate|]. destruct (negb (Nat.eqb (cols c) _)); [discriminate|]. destruct (negb (forallb _ _)); [discriminate|]. intros [= <-]. cbn [of_data centers labels loss].
  destruct (all_closest c _ l W E) as (A & B & C). split; [reflexivity|]. split; [reflexivity|]. split; [exact A|]. split; [exact B|].
  intros other L H. rewrite B. apply cost_minimal; assumption.
Qed.
Lemma result_total d c : well_shaped c -> well_shaped (datapoints d) -> rows c <> [] -> cols c = cols (datapoints d) ->
  exists r, new_result d c None None = Ok r.
Proof.
  intros W Wd N D. unfold new_result.
  assert (E : exists l, map_res (closest_center c) (rows (datapoints d)) = Ok l).
  { unfold well_shaped in Wd. rewrite <- D in Wd. induction Wd as [|x l Hx _ IH]; [exists []; reflexivity|]. destruct (closest_runs c x Hx N) as (i & v & Ex). destruct IH as [l' El]. cbn [map_res]. rewrite Ex. cbn [bind]. rewrite El. cbn [bind]. eauto. }
  destruct E as [l E]. rewrite E. cbn [bind]. destruct (all_closest c _ l W E) as (A & B & C).
  assert (L : List.length (rows (datapoints d)) = List.length (map fst l)) by (clear - A; induction A; cbn; congruence). unfold num_rows at 1. rewrite L, map_length, Nat.eqb_refl. cbn [negb]. rewrite D, Nat.eqb_refl. cbn [negb].
  replace (forallb _ (map fst l)) with true; [cbn; eauto|]. symmetry. apply forallb_forall. intros i Hi.
  assert (K : is_label c i). { clear - A Hi. induction A as [|x j xs ls (Hj & _) A IH]; [destruct Hi | destruct Hi as [<-|Hi]; [exact Hj | exact (IH Hi)]]. }
  unfold is_label in K. apply andb_true_intro. split; [apply Z.leb_le; lia | apply Z.ltb_lt; lia].
Qed.
Lemma result_given d c ls lo r : new_result d c (Some ls) (Some lo) = Ok r <->
  r = mkResult d c ls lo /\ List.length ls = num_rows (datapoints d) /\ cols c = cols (datapoints d) /\ Forall (is_label c) ls.
Proof.
  unfold new_result. cbn [bind]. destruct (Nat.eqb_spec (num_rows (datapoints d)) (List.length ls)) as [L|L]; cbn [negb]; [|split; [discriminate | intros (_ & H & _); congruence]].
  destruct (Nat.eqb_spec (cols c) (cols (datapoints d))) as [D|D]; cbn [negb]; [|split; [discriminate | intros (_ & _ & H & _); congruence]].
  destruct (forallb _ ls) eqn:F; cbn [negb].
  - rewrite forallb_forall in F. split.
    + intros [= <-]. repeat split; [congruence | exact D|]. apply Forall_forall. intros i Hi. apply F in Hi. apply andb_prop in Hi as [A B]. apply Z.leb_le in A. apply Z.ltb_lt in B. split; assumption.
    + intros (-> & _). reflexivity.
  - split; [discriminate|]. intros (_ & _ & _ & A). rewrite Forall_forall in A. assert (K : forallb (fun l => (0 <=? l)%Z && (l <? Z.of_nat (num_rows c))%Z)%bool ls = true); [|congruence].
    apply forallb_forall. intros i Hi. apply A in Hi. destruct Hi. apply andb_true_intro. split; [apply Z.leb_le; lia | apply Z.ltb_lt; lia].
Qed.
Lemma result_one d c ls lo : (ls = None /\ lo <> None) \/ (ls <> None /\ lo = None) -> new_result d c ls lo = Err ValueError.
Proof. intros [[-> H]|[H ->]]; [destruct lo; [reflexivity | congruence] | destruct ls; [reflexivity | congruence]]. Qed.
