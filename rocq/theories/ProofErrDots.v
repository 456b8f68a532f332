(** Privacy loss distributions made by connecting dots that are below the privacy curve by at most an error. *)
From Coq Require Import Lra.
From Verif Require Import Base XReal Exn PyDict TypesAdjacency ModelPmf ModelPld ModelMake SpecDP SpecPmf SpecPld SpecMake SpecMech
  ProofDP ProofDict ProofPmf ProofPld ProofDots ProofMixPld.

Lemma dots_within disc eps ds p E err : 0 < disc -> connect_dots disc eps ds = Ok p -> valid E -> 0 <= err ->
  (forall z d, In (z, d) (combine eps ds) -> hs E 1 (exp (IZR z * disc)) <= d + err) ->
  profile_bounds (fun e => pmf_delta p (Fin e) + err) E.
Proof.
  intros Hd CD V E0 H e. apply dp_iff_hockey. rewrite hockey_hs.
  destruct (dots_ok disc Hd _ _ _ CD) as (C1 & C2 & NE & G & R01 & _).
  destruct (combine eps ds) as [|[z0 d0] l] eqn:EL; [congruence|].
  pose proof (short_curve (fun t => hs E 1 t) err (exp (IZR z0 * disc)) (exper_curve E V) E0 (exp_pos _)) as SC.
  assert (K : Rmax (Rmax 0 (hs E 1 (exp e) - err)) (1 - exp e / exp (IZR z0 * disc)) <= pmf_delta p (Fin e)).
  { apply (dots_dominates disc Hd _ _ _ _ CD SC). rewrite EL. intros z d I.
    pose proof (grid_head_le _ _ _ _ _ G I) as Lz. pose proof (H z d I).
    assert (Id : In d ds) by (rewrite C2; apply in_map_iff; exists (z, d); split; [reflexivity | exact I]). apply R01 in Id.
    assert (T1 : 1 - exp (IZR z * disc) / exp (IZR z0 * disc) <= 0).
    { assert (exp (IZR z0 * disc) <= exp (IZR z * disc)) by (apply exp_le, Rmult_le_compat_r; [lra | apply IZR_le; lia]). pose proof (exp_pos (IZR z0 * disc)).
      assert (1 <= exp (IZR z * disc) / exp (IZR z0 * disc)); [|lra]. apply (Rmult_le_reg_r (exp (IZR z0 * disc))); [assumption|]. unfold Rdiv. rewrite Rmult_assoc, Rinv_l by lra. lra. }
    apply Rmax_lub; [apply Rmax_lub|]; lra. }
  pose proof (Rmax_l (Rmax 0 (hs E 1 (exp e) - err)) (1 - exp e / exp (IZR z0 * disc))). pose proof (Rmax_r 0 (hs E 1 (exp e) - err)). lra.
Qed.

Lemma grid_last l : grid l -> forall z d, In (z, d) l -> last (map snd l) 0 <= d.
Proof.
  induction l as [|[z0 d0] l IH]; intros G z d; [intros []|]. destruct l as [|[z1 d1] l].
  - intros [[= <- <-]|[]]. cbn. lra.
  - destruct G as (_ & D & G). intros [[= <- <-]|I].
    + change (last (map snd ((z0, d0) :: (z1, d1) :: l)) 0) with (last (map snd ((z1, d1) :: l)) 0). pose proof (IH G z1 d1 (or_introl eq_refl)). lra.
    + apply (IH G z d I).
Qed.
Lemma dots_last disc eps ds p z d : 0 < disc -> connect_dots disc eps ds = Ok p -> In (z, d) (combine eps ds) -> infinity_mass p <= d.
Proof.
  intros Hd CD I. destruct (dots_ok disc Hd _ _ _ CD) as (C1 & C2 & NE & G & R01 & W & PE & DI & IM & _).
  rewrite IM, C2. apply (grid_last _ G z d I).
Qed.
Lemma dots_sound disc eps ds p : 0 < disc -> connect_dots disc eps ds = Ok p -> sound_pmf p.
Proof.
  intros Hd CD. destruct (dots_ok disc Hd _ _ _ CD) as (C1 & C2 & NE & G & R01 & W & PE & DI & IM & _).
  split; [exact W|]. split; [|exact PE]. destruct (combine eps ds) as [|[z d] l] eqn:EL; [congruence|].
  assert (I : In (z, d) (combine eps ds)) by (rewrite EL; left; reflexivity). pose proof (dots_last disc eps ds p z d Hd CD I). apply in_combine_r in I. apply R01 in I. lra.
Qed.
