(** Neighbouring data: the clustering with aligned noise. *)
From Coq Require Import FunctionalExtensionality.
From Verif Require Import Base XReal Exn TypesCluster ModelCluster SpecCluster ProofTreeShape ProofLockstep ProofInfluence.

(** ** Clipping *)
Lemma dot_scale c u : dot (vscale c u) (vscale c u) = c * c * dot u u.
Proof. unfold dot, vscale. induction u as [|a u IH]; cbn [map combine rsum fst snd]; [ring|]. rewrite IH. ring. Qed.
Lemma dot_nonneg u : 0 <= dot u u.
Proof. unfold dot. induction u as [|a u IH]; cbn [combine rsum fst snd]; [lra|]. pose proof (Rle_0_sqr a). unfold Rsqr in *. lra. Qed.
Lemma norm_scale c u : 0 <= c -> norm (vscale c u) = c * norm u.
Proof. intros C. unfold norm. rewrite dot_scale, sqrt_mult_alt by nra. rewrite sqrt_square by exact C. reflexivity. Qed.
Lemma norm_nonneg u : 0 <= norm u.
Proof. apply sqrt_pos. Qed.
Lemma clip_norm radius u : 0 < radius -> norm (clip_row radius u) = Rmin (norm u) radius.
Proof.
  intros H. pose proof (norm_nonneg u). unfold clip_row. assert (0 < Rmax (norm u) radius) by (pose proof (Rmax_r (norm u) radius); lra).
  rewrite norm_scale by (apply Rlt_le, Rdiv_lt_0_compat; assumption). unfold Rmax, Rmin in *. destruct (Rle_dec (norm u) radius); field; lra.
Qed.
Lemma clip_inside radius u : 0 < radius -> norm u <= radius -> clip_row radius u = u.
Proof.
  intros H L. unfold clip_row, vscale. rewrite Rmax_right by exact L. replace (radius / radius) with 1 by (field; lra).
  induction u as [|a u IH] using list_ind; [reflexivity|]. cbn [map]. rewrite Rmult_1_l. f_equal. clear -a. induction u as [|b u IH]; [reflexivity|]. cbn [map]. rewrite IH, Rmult_1_l. reflexivity.
Qed.
Lemma clip_length radius u : List.length (clip_row radius u) = List.length u.
Proof. apply map_length. Qed.

(** ** Every noisy value is computed from rows with distinct names *)
Section Rows.
  Context (P : list point -> Prop) (PF : forall f l, P l -> P (filter f l)).
  Context (cnt : nat -> list point -> Z) (sm : nat -> list point -> vec) (projections : nat -> vec).
  Definition all_rows (s : trace) : Prop := forall r, In r s -> P (rows_of r).
  Lemma rows_app s l : all_rows s -> all_rows l -> all_rows (s ++ l).
  Proof. intros A B r Hr. apply in_app_or in Hr. destruct Hr; auto. Qed.
  Lemma rows_one r : P (rows_of r) -> all_rows [r].
  Proof. intros H x [<-|[]]. exact H. Qed.
  Lemma rows_children tp n s c s' : children cnt projections tp n s = Ok (c, s') -> P (nonprivate_points n) -> all_rows s -> all_rows s' /\ forall x, In x c -> P (nonprivate_points x).
  Proof.
    unfold children, group_by_next_hash, new_node, get_private_count. destruct (_ <=? _)%Z; [discriminate|]. cbn [bind]. intros [= <- <-] H A. split.
    - apply rows_app; [apply rows_app; [exact A|]|]; apply rows_one; cbn [rows_of]; apply PF, H.
    - intros x [<-|[<-|[]]]; apply PF, H.
  Qed.
  Lemma rows_all_children tp l s c s' : all_children cnt projections tp l s = Ok (c, s') -> (forall n, In n l -> P (nonprivate_points n)) -> all_rows s -> all_rows s' /\ forall x, In x c -> P (nonprivate_points x).
  Proof.
    revert s c s'. induction l as [|n l IH]; intros s c s'; cbn [all_children].
    - intros [= <- <-] _ A. split; [exact A | intros x []].
    - intros H N A. apply bind_Ok in H. destruct H as ((c1 & s1) & H1 & H). apply bind_Ok in H. destruct H as ((c2 & s2) & H2 & [= <- <-]).
      destruct (rows_children _ _ _ _ _ H1 (N n (or_introl eq_refl)) A) as [A1 C1]. destruct (IH _ _ _ H2 (fun n Hn => N n (or_intror Hn)) A1) as [A2 C2].
      split; [exact A2|]. intros x Hx. apply in_app_or in Hx. destruct Hx; auto.
  Qed.
  Lemma rows_grow tp n level s rest s' : grow cnt projections tp n level s = Ok (rest, s') -> (forall n, In n level -> P (nonprivate_points n)) -> all_rows s ->
    all_rows s' /\ forall l x, In l rest -> In x l -> P (nonprivate_points x).
  Proof.
    revert level s rest s'. induction n as [|n IH]; intros level s rest s'; cbn [grow].
    - intros [= <- <-] _ A. split; [exact A | intros l x []].
    - unfold get_next_level. intros H N A. apply bind_Ok in H. destruct H as ((next & s1) & H1 & H). apply bind_Ok in H1. destruct H1 as ((c & s1') & H1 & E). injection E as E <-.
      destruct (rows_all_children _ _ _ _ _ H1) as [A1 C1]; [intros x Hx; apply filter_In in Hx; apply N; tauto | exact A|].
      assert (C : forall x, In x next -> P (nonprivate_points x)) by (intros x Hx; rewrite <- E in Hx; apply filter_In in Hx; apply C1; tauto).
      clear E. destruct next as [|x0 r].
      + injection H as <- <-. split; [exact A1 | intros l x []].
      + apply bind_Ok in H. destruct H as ((rest' & s2) & H2 & [= <- <-]). destruct (IH _ _ _ _ H2 C A1) as [A2 C2]. split; [exact A2|].
        intros l x [<-|Hl] Hx; [apply C, Hx | apply (C2 l x Hl Hx)].
  Qed.
  Lemma rows_averages l s a s' : averages sm l s = Ok (a, s') -> (forall n, In n l -> P (nonprivate_points n)) -> all_rows s -> all_rows s'.
  Proof.
    revert s a s'. induction l as [|n l IH]; intros s a s'; cbn [averages]; [intros [= _ <-] _ A; exact A|].
    unfold get_private_average. destruct (_ <? 1)%Z; [discriminate|]. cbn [bind]. intros H N A. apply bind_Ok in H. destruct H as ((a1 & s1) & H1 & [= _ <-]).
    apply (IH _ _ _ H1); [intros; apply N; right; assumption|]. apply rows_app; [exact A|]. apply rows_one, N. left. reflexivity.
  Qed.
  Lemma rows_coreset tp radius pts count s core w s' : get_private_coreset cnt sm projections tp radius pts count s = Ok (core, w, s') -> P pts -> all_rows s -> all_rows s'.
  Proof.
    unfold get_private_coreset. destruct (_ <? 0)%Z; [discriminate|]. intros H HP A.
    assert (G : forall n t, nonprivate_points n = pts -> all_rows t -> (let root := mkNode (hash_prefix n) (nonprivate_points n) (Z.max 1 (private_count n)) in
      let? (leaves, s) := lsh_tree_leaves cnt projections tp root t in
      let? (avgs, s) := averages sm leaves s in let? core := clip_by_radius radius avgs in Ok (core, map private_count leaves, s)) = Ok (core, w, s') -> all_rows s').
    { intros n t E At. cbn zeta. unfold lsh_tree_leaves. cbn [private_count]. destruct (_ <? 1)%Z; [discriminate|]. intros K. apply bind_Ok in K. destruct K as ((leaves & s1) & K1 & K).
      apply bind_Ok in K1. destruct K1 as ((rest & s0) & K1 & EL). remember (flat_map (filter (is_leaf ([mkNode (hash_prefix n) (nonprivate_points n) (Z.max 1 (private_count n))] :: rest)))) as fl. injection EL as EL <-.
      destruct (rows_grow _ _ _ _ _ _ K1) as [A1 C1]; [intros x [<-|[]]; cbn; rewrite E; exact HP | exact At|].
      apply bind_Ok in K. destruct K as ((a & s2) & K2 & K). apply bind_Ok in K. destruct K as (cl & _ & [= _ _ <-]).
      apply (rows_averages _ _ _ _ K2); [|exact A1]. intros x Hx. rewrite <- EL, Heqfl in Hx. apply in_flat_map in Hx. destruct Hx as (l & Hl & Hx). apply filter_In in Hx. destruct Hl as [<-|Hl].
      - destruct Hx as [[<-|[]] _]. cbn. rewrite E. exact HP.
      - apply (C1 l x Hl), Hx. }
    destruct count as [c|]; [apply (G (mkNode [] pts c) s eq_refl A H)|].
    refine (G (mkNode [] pts (cnt (count_calls s) pts)) _ eq_refl _ H). apply rows_app; [exact A | apply rows_one, HP].
  Qed.
End Rows.

Lemma cluster_rows cnt sm projections kmeans pc k dim radius pts tree depth out s : NoDup (names pts) ->
  cluster_from cnt sm projections kmeans pc k dim radius pts tree depth [] = Ok (out, s) -> forall r, In r s -> NoDup (names (rows_of r)).
Proof.
  intros D H. change (all_rows (fun l => NoDup (names l)) s). unfold cluster_from in H. apply bind_Ok in H. destruct H as (((tp & c) & s0) & H0 & H). apply bind_Ok in H. destruct H as (cl & H1 & H).
  apply bind_Ok in H. destruct H as (((core & w) & s1) & H2 & H). apply bind_Ok in H. destruct H as (ce & _ & [= _ <-]).
  apply (rows_coreset _ names_filter _ _ _ _ _ _ _ _ _ _ _ H2); [destruct (clip_names _ _ _ H1) as [-> _]; exact D|].
  unfold choose_tree, default_tree_param, get_private_count in H0. destruct tree; [injection H0 as _ _ <-; intros r []|].
  destruct (Reqb _ _); [discriminate|]. destruct (_ =? 0)%Z; [discriminate|]. cbn zeta in H0. apply bind_Ok in H0. destruct H0 as (((t & v) & s') & H0 & [= _ _ <-]).
  apply bind_Ok in H0. destruct H0 as (t' & _ & [= _ _ <-]). intros r [<-|[]]. exact D.
Qed.

(** ** The values of a trace *)
Definition values_count (L : trace) (j : nat) : Z := match nth_error (filter is_count L) j with Some (CountRelease _ v) => v | _ => 0%Z end.
Definition values_sum (L : trace) (j : nat) : vec := match nth_error (filter (fun r => negb (is_count r)) L) j with Some (SumRelease _ v) => v | _ => [] end.
Lemma values_agree L : agree (fun j _ => values_count L j) (fun j _ => values_sum L j) L.
Proof.
  intros s1 r s2 E. destruct r as [p v|p v].
  - unfold values_count, count_calls. rewrite E, call_at by reflexivity. reflexivity.
  - unfold values_sum, sum_calls. rewrite E, (call_at (fun r => negb (is_count r))) by reflexivity. reflexivity.
Qed.
Lemma values_count_drop i L j : values_count (drop_trace i L) j = values_count L j.
Proof.
  unfold values_count. replace (filter is_count (drop_trace i L)) with (map (drop_release i) (filter is_count L)).
  - rewrite nth_error_map. destruct (nth_error _ j) as [[p v|p v]|]; reflexivity.
  - unfold drop_trace. induction L as [|[p v|p v] L IH]; cbn; rewrite ?IH; reflexivity.
Qed.
Lemma values_sum_drop i L j : values_sum (drop_trace i L) j = values_sum L j.
Proof.
  unfold values_sum. replace (filter (fun r => negb (is_count r)) (drop_trace i L)) with (map (drop_release i) (filter (fun r => negb (is_count r)) L)).
  - rewrite nth_error_map. destruct (nth_error _ j) as [[p v|p v]|]; reflexivity.
  - unfold drop_trace. induction L as [|[p v|p v] L IH]; cbn; rewrite ?IH; reflexivity.
Qed.

(** ** Neighbours *)
Section Neighbours.
  Context (projections : nat -> vec) (kmeans : Z -> list vec -> list Z -> res (list vec)) (pc : calculator) (k : Z) (dim : nat) (radius : R).
  Context (tree : option tree_param) (depth : Z) (pts : list point) (i : nat).
  Context (HR : 0 < radius) (HF : laplace_param pc <> PInf) (HP : rows_ok dim pts) (HI : In i (names pts)) (HN : without i pts <> []).
  Context (HT : forall t, tree = Some t -> max_depth t = depth).
  Notation from cnt sm D := (cluster_from cnt sm projections kmeans pc k dim radius D tree depth []).
  Notation run n g D := (cluster_with n g projections kmeans pc k dim radius D tree depth).
  Notation values L := (fun j (_ : list point) => values_count L j).
  Notation vsums L := (fun j (_ : list point) => values_sum L j).

  (** The clipped row. *)
  Definition row : vec := match find (fun p : point => Nat.eqb (fst p) i) pts with Some p => clip_row radius (snd p) | None => [] end.
  Lemma row_is p : In p pts -> fst p = i -> clip_row radius (snd p) = row.
  Proof.
    unfold row. destruct HP as [D _]. intros Hp E. clear HI HN HP. induction pts as [|q l IH]; [destruct Hp|]. inversion D as [|? ? N D']; subst. cbn [find].
    destruct (Nat.eqb_spec (fst q) (fst p)) as [E|E].
    - destruct Hp as [->|Hp]; [reflexivity|]. exfalso. apply N. rewrite E. apply in_map, Hp.
    - destruct Hp as [->|Hp]; [congruence|]. apply IH; assumption.
  Qed.
  Lemma row_ok : List.length row = dim /\ norm row <= radius.
  Proof.
    apply in_map_iff in HI. destruct HI as (p & E & Hp). rewrite <- (row_is p Hp E). rewrite clip_length, clip_norm by exact HR. split; [apply HP, Hp | apply Rmin_r].
  Qed.

  (** Facts about the trace of a run on all rows. *)
  Lemma trace_facts cnt sm out L : from cnt sm pts = Ok (out, L) ->
    (forall r, In r L -> NoDup (names (rows_of r))) /\
    (forall r, In r L -> is_count r = false -> forall q, In q (rows_of r) -> List.length (snd q) = dim /\ (fst q = i -> snd q = row)) /\
    (counts_with i L <= Z.to_nat (depth + 1))%nat /\ (sums_with i L <= 1)%nat.
  Proof.
    intros H. destruct HP as [D Ln]. destruct (cluster_shape _ _ _ _ _ _ _ _ _ _ _ _ _ D HT H) as (C & S & Q). split; [|split; [|auto]].
    - apply (cluster_rows _ _ _ _ _ _ _ _ _ _ _ _ _ D H).
    - intros r Hr Cr q Hq. destruct (Q r q Hr Cr Hq) as (p & Hp & ->). cbn [fst snd]. rewrite clip_length. split; [apply Ln, Hp|]. intros E. apply row_is; assumption.
  Qed.

  Lemma remove_row n g out L : noise_ok dim g -> run n g pts = Ok (out, L) ->
    run (move_count i L 1 n) (move_sum i L row g) (without i pts) = Ok (out, drop_trace i L) /\
    shifted (Z.to_nat (depth + 1)) n (move_count i L 1 n) /\ moved radius g (move_sum i L row g).
  Proof.
    intros G H. destruct (trace_facts _ _ _ _ H) as (F1 & F2 & F3 & F4). destruct row_ok as [Lx Nx].
    destruct (step_cluster (noisy_count n pc) (noisy_sum g dim) projections kmeans pc k dim radius pts tree depth [] out L H) as (A & _ & X).
    specialize (A (agree_nil _ _)). specialize (X _ _ (values_agree L)).
    assert (Y : from (values L) (vsums L) (without i pts) = Ok (out, drop_trace i L)) by (rewrite drop_cluster by exact HN; cbn beta in X; rewrite X; reflexivity).
    destruct (step_cluster (values L) (vsums L) projections kmeans pc k dim radius (without i pts) tree depth [] out (drop_trace i L) Y) as (_ & _ & Z).
    split; [|split].
    - apply Z. apply (align_remove i row dim pc L (Z.to_nat (depth + 1))); assumption.
    - apply (move_shifted i row dim); [exact Lx | exact F3 | exact F4 | lia].
    - apply (move_moved i row dim L (Z.to_nat (depth + 1))); try assumption; lra.
  Qed.

  Lemma add_row n g out L' : noise_ok dim g -> run n g (without i pts) = Ok (out, L') ->
    exists L, drop_trace i L = L' /\ run (move_count i L (-1) n) (move_sum i L (vscale (-1) row) g) pts = Ok (out, L) /\
    shifted (Z.to_nat (depth + 1)) n (move_count i L (-1) n) /\ moved radius g (move_sum i L (vscale (-1) row) g).
  Proof.
    intros G H. destruct row_ok as [Lx Nx].
    destruct (step_cluster (noisy_count n pc) (noisy_sum g dim) projections kmeans pc k dim radius (without i pts) tree depth [] out L' H) as (A & _ & X).
    specialize (A (agree_nil _ _)). specialize (X _ _ (values_agree L')). cbn beta in X. rewrite drop_cluster in X by exact HN. unfold dropped in X.
    apply bind_Ok in X. destruct X as ((out0 & L) & X & E). injection E as -> E.
    destruct (trace_facts _ _ _ _ X) as (F1 & F2 & F3 & F4). exists L. split; [exact E|].
    destruct (step_cluster (values L') (vsums L') projections kmeans pc k dim radius pts tree depth [] out L X) as (_ & _ & Z).
    split; [|split].
    - apply Z. apply (align_add i row dim pc L (Z.to_nat (depth + 1))); try assumption. rewrite E. exact A.
    - apply (move_shifted i row dim); [exact Lx | exact F3 | exact F4 | lia].
    - apply (move_moved i row dim L (Z.to_nat (depth + 1))); try assumption; [lra | rewrite norm_neg; exact Nx | unfold vscale; rewrite map_length; exact Lx].
  Qed.

  (** The trace without the row determines the trace. *)
  Lemma drop_injective n g out L n2 g2 out2 L2 : run n g pts = Ok (out, L) -> run n2 g2 pts = Ok (out2, L2) -> drop_trace i L = drop_trace i L2 -> L = L2.
  Proof.
    intros H1 H2 E.
    destruct (step_cluster (noisy_count n pc) (noisy_sum g dim) projections kmeans pc k dim radius pts tree depth [] out L H1) as (_ & _ & X1). specialize (X1 _ _ (values_agree L)).
    destruct (step_cluster (noisy_count n2 pc) (noisy_sum g2 dim) projections kmeans pc k dim radius pts tree depth [] out2 L2 H2) as (_ & _ & X2). specialize (X2 _ _ (values_agree L2)).
    assert (C : values L = values L2) by (extensionality j; extensionality q; rewrite <- (values_count_drop i L), E; apply values_count_drop).
    assert (S : vsums L = vsums L2) by (extensionality j; extensionality q; rewrite <- (values_sum_drop i L), E; apply values_sum_drop).
    rewrite C, S in X1. rewrite X1 in X2. injection X2 as _ <-. reflexivity.
  Qed.
  Lemma vadd_inj x u v : List.length u = List.length x -> List.length v = List.length x -> vadd u x = vadd v x -> u = v.
  Proof.
    intros Hu Hv E. rewrite <- (vadd_zero u), Hu, <- vadd_neg, <- vadd_assoc, E, vadd_assoc, vadd_neg, <- Hv. apply vadd_zero.
  Qed.

  Definition align (ng : (nat -> Z) * (nat -> vec)) : (nat -> Z) * (nat -> vec) :=
    match run (fst ng) (snd ng) pts with Ok (_, L) => (move_count i L 1 (fst ng), move_sum i L row (snd ng)) | Err _ => ng end.
  Lemma align_injective n g n2 g2 out out2 L L2 : noise_ok dim g -> noise_ok dim g2 -> run n g pts = Ok (out, L) -> run n2 g2 pts = Ok (out2, L2) ->
    align (n, g) = align (n2, g2) -> n = n2 /\ g = g2.
  Proof.
    intros G G2 H H2. unfold align. cbn [fst snd]. rewrite H, H2. intros [= E1 E2].
    destruct (remove_row _ _ _ _ G H) as (R1 & _). destruct (remove_row _ _ _ _ G2 H2) as (R2 & _). rewrite E1, E2, R2 in R1. injection R1 as _ D. symmetry in D.
    pose proof (drop_injective _ _ _ _ _ _ _ _ H H2 D) as <-. split.
    - extensionality j. apply (f_equal (fun f => f j)) in E1. unfold move_count in E1. destruct (hit i _); [lia | exact E1].
    - extensionality j. apply (f_equal (fun f => f j)) in E2. unfold move_sum in E2. destruct (hit i _); [|exact E2].
      apply (vadd_inj row); [rewrite (G j); symmetry; apply row_ok | rewrite (G2 j); symmetry; apply row_ok | exact E2].
  Qed.

  (** The other direction: the run on all rows with the values of the run without the row. *)
  Definition unalign (ng : (nat -> Z) * (nat -> vec)) : (nat -> Z) * (nat -> vec) :=
    match run (fst ng) (snd ng) (without i pts) with
    | Ok (_, L') => match from (values L') (vsums L') pts with
                    | Ok (_, L) => (move_count i L (-1) (fst ng), move_sum i L (vscale (-1) row) (snd ng))
                    | Err _ => ng
                    end
    | Err _ => ng
    end.
  Lemma unalign_is n g out L' : noise_ok dim g -> run n g (without i pts) = Ok (out, L') ->
    exists L, drop_trace i L = L' /\ unalign (n, g) = (move_count i L (-1) n, move_sum i L (vscale (-1) row) g) /\
      run (move_count i L (-1) n) (move_sum i L (vscale (-1) row) g) pts = Ok (out, L) /\
      shifted (Z.to_nat (depth + 1)) n (move_count i L (-1) n) /\ moved radius g (move_sum i L (vscale (-1) row) g).
  Proof.
    intros G H. destruct (add_row _ _ _ _ G H) as (L & E & X & Sh & Mv). exists L. split; [exact E|]. split; [|auto]. unfold unalign. cbn [fst snd]. rewrite H.
    destruct (step_cluster _ _ projections kmeans pc k dim radius pts tree depth [] out L X) as (_ & _ & Y). specialize (Y _ _ (values_agree L)). cbn beta in Y.
    assert (C : values L' = values L) by (extensionality j; extensionality q; rewrite <- E; apply values_count_drop).
    assert (S : vsums L' = vsums L) by (extensionality j; extensionality q; rewrite <- E; apply values_sum_drop).
    rewrite C, S, Y. reflexivity.
  Qed.
  Lemma unalign_run n g out L' : noise_ok dim g -> run n g (without i pts) = Ok (out, L') ->
    exists L, run (fst (unalign (n, g))) (snd (unalign (n, g))) pts = Ok (out, L) /\
      shifted (Z.to_nat (depth + 1)) n (fst (unalign (n, g))) /\ moved radius g (snd (unalign (n, g))).
  Proof. intros G H. destruct (unalign_is _ _ _ _ G H) as (L & _ & -> & X). exists L. exact X. Qed.
  Lemma unalign_injective n g n2 g2 out out2 L L2 : noise_ok dim g -> noise_ok dim g2 -> run n g (without i pts) = Ok (out, L) -> run n2 g2 (without i pts) = Ok (out2, L2) ->
    unalign (n, g) = unalign (n2, g2) -> n = n2 /\ g = g2.
  Proof.
    intros G G2 H H2. destruct (unalign_is _ _ _ _ G H) as (M & _ & -> & X & _). destruct (unalign_is _ _ _ _ G2 H2) as (M2 & _ & -> & X2 & _). intros [= E1 E2].
    rewrite E1, E2, X2 in X. injection X as _ ->. assert (Ln : List.length (vscale (-1) row) = dim) by (unfold vscale; rewrite map_length; apply row_ok). split.
    - extensionality j. apply (f_equal (fun f => f j)) in E1. unfold move_count in E1. destruct (hit i _); [lia | exact E1].
    - extensionality j. apply (f_equal (fun f => f j)) in E2. unfold move_sum in E2. destruct (hit i _); [|exact E2].
      apply (vadd_inj (vscale (-1) row)); [rewrite (G j); symmetry; exact Ln | rewrite (G2 j); symmetry; exact Ln | exact E2].
  Qed.
End Neighbours.
