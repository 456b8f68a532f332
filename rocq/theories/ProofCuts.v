(** More cuts tell more; a pair of mirror-symmetric distributions has a symmetric refinement. *)
From Verif Require Import Base XReal SpecDP SpecRenyi SpecMech ProofDP ProofPeak ProofShape ProofShapeGauss ProofRenyi ProofObserve ProofGaussRdp ProofRefine.
Local Arguments Rltb : simpl never.
Local Arguments Rleb : simpl never.
Local Arguments Reqb : simpl never.

Fixpoint ins (c : R) (l : list R) : list R :=
  match l with
  | [] => [c]
  | x :: l' => if Rltb c x then c :: l else if Reqb c x then l else x :: ins c l'
  end.
Lemma ins_In c l x : In x (ins c l) <-> x = c \/ In x l.
Proof.
  induction l as [|y l IH]; cbn [ins].
  - cbn. intuition auto.
  - destruct (Rltb c y); [cbn; intuition auto|]. destruct (Reqb_spec c y) as [->|N]; [cbn; intuition auto|].
    cbn [In]. rewrite IH. intuition auto.
Qed.
Lemma ins_sorted c l : StronglySorted Rlt l -> StronglySorted Rlt (ins c l).
Proof.
  induction 1 as [|y l HS IH HF]; cbn [ins]; [repeat constructor|].
  destruct (Rltb_spec c y).
  - constructor; [constructor; assumption|]. constructor; [assumption|]. eapply Forall_impl; [|exact HF]. intros z Hz. cbn in *. lra.
  - destruct (Reqb_spec c y) as [->|N]; [constructor; assumption|]. constructor; [assumption|]. apply Forall_forall. intros z Hz.
    apply ins_In in Hz. destruct Hz as [->|Hz]; [lra|]. rewrite Forall_forall in HF. apply HF, Hz.
Qed.
Lemma sorted_unique l1 : forall l2, StronglySorted Rlt l1 -> StronglySorted Rlt l2 -> (forall x, In x l1 <-> In x l2) -> l1 = l2.
Proof.
  induction l1 as [|x l1 IH]; intros [|y l2] H1 H2 H.
  - reflexivity.
  - exfalso. apply (proj2 (H y)). left. reflexivity.
  - exfalso. apply (proj1 (H x)). left. reflexivity.
  - inversion H1 as [|? ? S1 F1]; subst. inversion H2 as [|? ? S2 F2]; subst. rewrite Forall_forall in F1, F2.
    assert (x = y) as ->.
    { destruct (proj1 (H x) (or_introl eq_refl)) as [|I1]; [auto|]. destruct (proj2 (H y) (or_introl eq_refl)) as [|I2]; [auto|].
      specialize (F1 y I2). specialize (F2 x I1). lra. }
    f_equal. apply IH; try assumption. intros z. split; intros I.
    + destruct (proj1 (H z) (or_intror I)) as [<-|]; [|assumption]. specialize (F1 y I). lra.
    + destruct (proj2 (H z) (or_intror I)) as [<-|]; [|assumption]. specialize (F2 y I). lra.
Qed.

Definition split_cell (c : R) (cell : xr * xr) : list (xr * xr) :=
  let (u, v) := cell in if (xltb u (Fin c) && xltb (Fin c) v)%bool then [(u, Fin c); (Fin c, v)] else [(u, v)].
Fixpoint cells_at (x0 : xr) (l : list R) : list (xr * xr) :=
  match l with [] => [(x0, PInf)] | c :: l => (x0, Fin c) :: cells_at (Fin c) l end.
Lemma cells_at_eq l : cells l = cells_at MInf l.
Proof.
  unfold cells. generalize MInf. induction l as [|c l IH]; intros x0; [reflexivity|].
  cbn [map app]. cbn [combine cells_at]. f_equal. apply IH.
Qed.
Lemma cells_at_above c l : forall x, StronglySorted Rlt (x :: l) -> c <= x -> flat_map (split_cell c) (cells_at (Fin x) l) = cells_at (Fin x) l.
Proof.
  induction l as [|y l IH]; intros x HS L; cbn [cells_at flat_map split_cell xltb].
  - rewrite Rltb_false by assumption. reflexivity.
  - rewrite Rltb_false by assumption. cbn [andb app]. f_equal. inversion HS as [|? ? HS' HF]; subst. apply IH; [assumption|]. inversion HF; subst. lra.
Qed.
Lemma cells_split c l : forall x0, xltb x0 (Fin c) = true -> StronglySorted Rlt l -> cells_at x0 (ins c l) = flat_map (split_cell c) (cells_at x0 l).
Proof.
  induction l as [|x l IH]; intros x0 L HS; cbn [ins cells_at flat_map split_cell].
  - rewrite L. cbn. reflexivity.
  - rewrite L. cbn [andb xltb]. destruct (Rltb_spec c x) as [H|H].
    + cbn [cells_at app]. do 2 f_equal. symmetry. apply cells_at_above; [assumption | lra].
    + destruct (Reqb_spec c x) as [->|N].
      * cbn [cells_at app]. f_equal. symmetry. apply cells_at_above; [assumption | lra].
      * cbn [cells_at app]. f_equal. inversion HS; subst. apply IH; [|assumption]. cbn. apply Rltb_true. lra.
Qed.
Lemma observe_ins P Q c l : StronglySorted Rlt l -> refines (observe P Q (ins c l)) (observe P Q l).
Proof.
  intros HS. assert (C : cells (ins c l) = flat_map (split_cell c) (cells l)).
  { rewrite !cells_at_eq. apply cells_split; [reflexivity | assumption]. }
  exists (split_cell c). cbn [outs observe]. split.
  - intros f. rewrite C. apply rsum_flat_map.
  - intros [u v] Ho. cbn [prP prQ observe fst snd split_cell]. split; [|split].
    + destruct (xltb u (Fin c) && xltb (Fin c) v)%bool; cbn; lra.
    + destruct (xltb u (Fin c) && xltb (Fin c) v)%bool; cbn; lra.
    + intros o' I. rewrite C. apply in_flat_map. exists (u, v). auto.
Qed.
Definition ins_all (cs l : list R) : list R := fold_right ins l cs.
Lemma ins_all_sorted cs l : StronglySorted Rlt l -> StronglySorted Rlt (ins_all cs l).
Proof. intros H. induction cs as [|c cs IH]; [assumption | apply ins_sorted, IH]. Qed.
Lemma ins_all_In cs l x : In x (ins_all cs l) <-> In x cs \/ In x l.
Proof. induction cs as [|c cs IH]; cbn [ins_all fold_right]; [cbn; intuition auto|]. rewrite ins_In. fold (ins_all cs l). rewrite IH. cbn. intuition auto. Qed.
Lemma observe_ins_all P Q cs l : StronglySorted Rlt l -> refines (observe P Q (ins_all cs l)) (observe P Q l).
Proof.
  intros HS. induction cs as [|c cs IH]; [apply refines_refl|]. eapply refines_trans; [|exact IH]. apply observe_ins, ins_all_sorted, HS.
Qed.

(** Reflection at m/2. *)
Definition refl_end (m : R) (x : xr) : xr := match x with Fin a => Fin (m - a) | PInf => MInf | MInf => PInf | NaN => NaN end.
Definition refl_cell (m : R) (c : xr * xr) : xr * xr := (refl_end m (snd c), refl_end m (fst c)).
Lemma combine_rev {A B} (l1 : list A) : forall (l2 : list B), List.length l1 = List.length l2 -> combine (rev l1) (rev l2) = rev (combine l1 l2).
Proof.
  induction l1 as [|x l1 IH]; intros [|y l2] H; cbn in *; try discriminate; [reflexivity|]. injection H as H. rewrite <- IH by assumption.
  assert (H' : List.length (rev l1) = List.length (rev l2)) by (rewrite !rev_length; assumption). revert H'. generalize (rev l1) (rev l2).
  induction l as [|u l IHl]; intros [|v m] H'; cbn in *; try discriminate; [reflexivity|]. f_equal. apply IHl. lia.
Qed.
Lemma cells_refl m l : map (refl_cell m) (cells l) = rev (cells (rev (map (fun x => m - x) l))).
Proof.
  unfold cells. rewrite <- combine_rev by (cbn; rewrite app_length, map_length, Nat.add_comm; reflexivity).
  rewrite rev_app_distr. cbn [rev app]. rewrite !map_rev, !rev_involutive, map_map.
  transitivity (combine (map (refl_end m) (map Fin l ++ [PInf])) (map (refl_end m) (MInf :: map Fin l))).
  - generalize (MInf :: map Fin l) (map Fin l ++ [PInf]). intros l1. induction l1 as [|x l1 IH]; intros [|y l2]; cbn; try reflexivity.
    f_equal. apply IH.
  - rewrite map_app. cbn [map refl_end]. rewrite !map_map. reflexivity.
Qed.
Lemma rev_map_sorted m l : StronglySorted Rlt l -> StronglySorted Rlt (rev (map (fun x => m - x) l)).
Proof.
  induction 1 as [|x l HS IH HF]; cbn; [constructor|].
  assert (G : forall l y, StronglySorted Rlt l -> Forall (fun z => z < y) l -> StronglySorted Rlt (l ++ [y])).
  { clear. induction l as [|z l IH]; intros y HS HF; cbn; [repeat constructor|]. inversion HS; subst. inversion HF; subst. constructor; [apply IH; assumption|].
    apply Forall_app. split; [assumption | repeat constructor; assumption]. }
  apply G; [assumption|]. apply Forall_forall. intros z Hz. apply in_rev in Hz. apply in_map_iff in Hz. destruct Hz as (w & <- & Hw).
  rewrite Forall_forall in HF. specialize (HF w Hw). lra.
Qed.
Lemma observe_symmetric P Q m l : (forall x, P (m - x) = 1 - Q x) -> StronglySorted Rlt l -> (forall x, In x l -> In (m - x) l) ->
  symmetric_exper (observe P Q l).
Proof.
  intros HM HS HC. assert (HM' : forall x, Q (m - x) = 1 - P x).
  { intros x. specialize (HM (m - x)). replace (m - (m - x)) with x in HM by ring. lra. }
  exists (refl_cell m). cbn [outs observe]. split.
  - intros f. rewrite <- rsum_map, cells_refl, rsum_rev. replace (rev (map (fun x => m - x) l)) with l; [reflexivity|].
    apply sorted_unique; [assumption | apply rev_map_sorted; assumption|]. intros x. rewrite <- in_rev, in_map_iff. split.
    + intros I. exists (m - x). split; [ring | apply HC, I].
    + intros (y & <- & I). apply HC, I.
  - intros [u v] Ho. cbn [prP prQ observe refl_cell fst snd].
    assert (N : u <> NaN /\ v <> NaN).
    { rewrite cells_at_eq in Ho. revert Ho. assert (H : MInf <> NaN) by discriminate. revert H. generalize MInf. clear.
      induction l as [|c l IH]; intros x0 Hx; cbn [cells_at].
      - intros [E|[]]. injection E as <- <-. split; [assumption | discriminate].
      - intros [E|I]; [injection E as <- <-; split; [assumption | discriminate]|]. apply (IH (Fin c)); [discriminate | assumption]. }
    assert (EP : forall x, x <> NaN -> at_end P (refl_end m x) = 1 - at_end Q x) by (intros [x| | |] Hx; cbn; try lra; [apply HM | congruence]).
    assert (EQ : forall x, x <> NaN -> at_end Q (refl_end m x) = 1 - at_end P x) by (intros [x| | |] Hx; cbn; try lra; [apply HM' | congruence]).
    rewrite !EP, !EQ by apply N. split; ring.
Qed.
Lemma symmetric_refinement P Q m l : (forall x, P (m - x) = 1 - Q x) -> StronglySorted Rlt l ->
  exists l', StronglySorted Rlt l' /\ refines (observe P Q l') (observe P Q l) /\ symmetric_exper (observe P Q l').
Proof.
  intros HM HS. exists (ins_all (map (fun x => m - x) l) l). split; [apply ins_all_sorted, HS|]. split; [apply observe_ins_all, HS|].
  apply (observe_symmetric P Q m); [assumption | apply ins_all_sorted, HS|]. intros x. rewrite !ins_all_In, !in_map_iff.
  intros [(y & <- & I)|I]; [right; replace (m - (m - y)) with y by ring; assumption | left; exists x; auto].
Qed.
