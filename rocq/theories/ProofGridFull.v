(** Discrete Gaussian noise that is not truncated, on every grid. *)
From Verif Require Import Base XReal Exn PyDict SpecDP SpecPmf SpecPld SpecMech SpecDGauss SpecConstruct SpecAccErr ModelPmf ModelPld ModelMake ModelMech
  ProofDP ProofDict ProofPeak ProofPld ProofShape ProofShapeInt ProofFindNoise ProofClasses ProofConstruct ProofConstructEx ProofDGaussTail ProofDGaussPriv
  ProofErrComp ProofNoiseNear ProofGrid ProofGridMass.
Local Arguments Rltb : simpl never.

Lemma untruncated_grid fuel sigma s disc q dots D G : 0 < disc ->
  from_discrete_gaussian_mechanism fuel sigma s None true disc q dots = Ok D ->
  integer_noise (full_dgaussian_weights sigma) G ->
  forall E eps, noisy_query integer_value G q (IZR s) E -> dp_both E eps (pld_delta D (Fin eps) + (if dots then grid_error q else 0) + 1 / 10 ^ 30).
Proof.
  intros Hd HD HG E eps (v & d & cuts & Iv & Id & Bd & SC & ->).
  destruct (constructed_q _ _ _ _ _ _ _ _ _ HD) as (Hs & Hb & Hq). set (T := default_bound sigma None) in *.
  pose proof (dgaussian_noise sigma T ltac:(lia)) as HF. set (err := if dots then grid_error q else 0).
  assert (SB : sound_pld D /\ forall E, noisy_query integer_value (dgaussian_law sigma T) q (IZR s) E -> pld_within err D E).
  { assert (FM : from_mechanism fuel true dots disc q (Ok D) integer_value (dgaussian_law sigma T) (IZR s)) by (apply (by_discrete_gaussian fuel true dots disc q (Ok D) sigma s None); assumption).
    unfold err. destruct dots; [apply (constructed_within fuel true disc q D _ _ _ Hd FM (or_introl eq_refl))|].
    destruct (integer_buckets_sound fuel disc q D _ _ Hd FM) as [S B]. split; [exact S|]. intros E HE. apply within_bounds, B, HE. }
  destruct SB as [S B].
  set (E0 := observe (sampled q (add_noise (dgaussian_law sigma T) v) (add_noise (dgaussian_law sigma T) (v + d))) (add_noise (dgaussian_law sigma T) v) cuts).
  assert (Q0 : noisy_query integer_value (dgaussian_law sigma T) q (IZR s) E0) by (exists v, d, cuts; repeat split; assumption).
  destruct (within_delta_sound err D E0 eps (sound_wide D S) (B E0 Q0)) as [P1 P2]. apply dp_iff_hockey in P1. apply dp_iff_hockey in P2.
  pose proof (truncated_mass sigma G Hs HG) as M. cbv zeta in M. fold T in M.
  destruct (truncated_part sigma T G Hs ltac:(lia) HG) as [Ht P]. set (tau := 1 - (G (IZR T) - G (IZR (- T - 1)))) in *.
  assert (D0 : 0 <= pld_delta D (Fin eps) + err).
  { eapply Rle_trans; [|exact P1]. unfold hockey_stick. apply rsum_nonneg. intros. unfold pos. apply Rmax_l. }
  assert (PS : forall w, part_of tau (add_noise (dgaussian_law sigma T) w) (add_noise G w)) by (intros; apply part_shift; exact P).
  assert (PU : part_of tau (sampled q (add_noise (dgaussian_law sigma T) v) (add_noise (dgaussian_law sigma T) (v + d))) (sampled q (add_noise G v) (add_noise G (v + d)))) by (apply part_sampled; [lra | apply PS | apply PS]).
  split; apply dp_iff_hockey.
  - eapply Rle_trans; [apply (part_private tau _ _ _ _ cuts eps _ Ht SC PU (PS v) D0 P1)|]. lra.
  - rewrite swap_observe in *. unfold E0 in P2. rewrite swap_observe in P2. eapply Rle_trans; [apply (part_private tau _ _ _ _ cuts eps _ Ht SC (PS v) PU D0 P2)|]. lra.
Qed.
Lemma untruncated_grid_example : exists G N D, integer_noise (full_dgaussian_weights 2) G /\ ~ grid_clear bad_disc (1/2) /\
  from_discrete_gaussian_mechanism N 2 3 None true bad_disc (1/2) false = Ok D /\ exists E, noisy_query integer_value G (1/2) (IZR 3) E.
Proof.
  destruct (full_exists 2 ltac:(lra)) as [G HG]. pose proof bad_disc_pos as Hd.
  assert (B : (3 <= 2 * default_bound 2 None)%Z). { unfold default_bound. rewrite (Rceil_unique _ 24) by lra. lia. }
  destruct (dgauss_constructs 2 3 None true bad_disc (1 / 2) false) as (N & D & H); try lra; try lia; try (intros ?; discriminate).
  exists G, N, D. split; [exact HG|]. split; [exact bad_not_clear|]. split; [apply H; lia|]. eexists. exists 0, 3, [1; 2]. split; [exists 0%Z; reflexivity|]. split; [exists 3%Z; reflexivity|].
  split; [rewrite Rabs_right; lra|]. split; [|reflexivity]. repeat constructor; lra.
Qed.
