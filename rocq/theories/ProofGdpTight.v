(** The domination of Gaussian interactions is tight, and so the returned noise is the smallest. *)
From Coq Require Import FunctionalExtensionality.
From Verif Require Import Base XReal Exn TypesAdjacency SpecDP SpecMech SpecNoiseAcc SpecClasses SpecSearch SpecPld ModelPmf ModelMech ModelNoise
  ProofDP ProofShape ProofShapeGauss ProofPeak ProofCuts ProofNormal ProofGdp ProofGdpSeq ProofNoiseAcc ProofAdvanced ProofFindNoise ProofGaussNoise ProofGaussTotal ProofAccSound ModelMake.
Local Open Scope R_scope.
Local Arguments Rltb : simpl never.
Local Arguments Rleb : simpl never.
Local Arguments Reqb : simpl never.

Lemma grid_sorted h n : 0 < h -> forall x, Forall (Rlt x) (ProofGdp.grid x h n) /\ StronglySorted Rlt (ProofGdp.grid x h n).
Proof.
  intros Hh. induction n as [|n IH]; intros x; cbn [ProofGdp.grid]; [split; constructor|]. destruct (IH (x + h)) as [F S]. split; constructor; try assumption; try lra.
  eapply Forall_impl; [|exact F]. cbn. intros y Hy. lra.
Qed.
Lemma cuts_sorted k : (0 < k)%nat -> StronglySorted Rlt (cuts_at k).
Proof.
  intros Hk. unfold cuts_at. assert (0 < / INR k) by (apply Rinv_0_lt_compat, lt_0_INR, Hk).
  destruct (grid_sorted (/ INR k) (2 * k * k) H (- INR k)). constructor; assumption.
Qed.

Section Tight.
  Context (Phi : R -> R) (HPhi : normal_cdf Phi).
  Notation law sigma := (fun y => Phi (y / sigma)).
  Notation top mu a b := (test Phi mu a b (thr mu a b)).

  Lemma plain_at sigma s cuts : 0 < sigma -> 0 < s -> StronglySorted Rlt cuts ->
    exists F, noisy_query any_value (law sigma) 1 s F /\ forall a b, hs F a b = hs (pair_at Phi (s / sigma) cuts) a b.
  Proof.
    intros Hs Hn SC. eexists. split.
    - exists 0, (- s), (map (fun x => x * sigma) cuts). repeat split.
      + rewrite Rabs_Ropp, Rabs_pos_eq; lra.
      + clear -SC Hs. induction SC as [|x l SC IH HF]; cbn; constructor; [assumption|]. apply Forall_map. eapply Forall_impl; [|exact HF]. intros y Hy. cbn. apply Rmult_lt_compat_r; assumption.
    - intros a b. unfold hs, pair_at. cbn [outs prP prQ observe]. rewrite cells_scale, rsum_map_eq. apply rsum_ext. intros [u w] _. cbn [fst snd].
      assert (A : forall y, at_end (sampled 1 (add_noise (law sigma) 0) (add_noise (law sigma) (0 + - s))) (scale_end sigma y) = at_end (fun x => Phi (x + s / sigma)) y).
      { intros [y| | |]; cbn; try reflexivity. unfold sampled, add_noise. replace ((y * sigma - (0 + - s)) / sigma) with (y + s / sigma) by (field; lra). ring. }
      assert (B : forall y, at_end (add_noise (law sigma) 0) (scale_end sigma y) = at_end Phi y).
      { intros [y| | |]; cbn; try reflexivity. unfold add_noise. f_equal. field. lra. }
      rewrite !A, !B. reflexivity.
  Qed.
  Lemma all_of {A} (P : A -> nat -> Prop) (l : list A) : (forall x, In x l -> exists K, (0 < K)%nat /\ forall k, (K <= k)%nat -> P x k) ->
    exists K, (0 < K)%nat /\ forall x, In x l -> P x K.
  Proof.
    intros H. assert (G : exists K, (0 < K)%nat /\ forall k, (K <= k)%nat -> forall x, In x l -> P x k).
    { induction l as [|y l IH]; [exists 1%nat; split; [lia | intros k _ x []]|].
      destruct IH as (K1 & P1 & H1); [intros x I; apply H; right; exact I|]. destruct (H y (or_introl eq_refl)) as (K2 & P2 & H2).
      exists (Nat.max K1 K2). split; [lia|]. intros k Hk x [<-|I]; [apply H2; lia | apply H1; [lia | exact I]]. }
    destruct G as (K & P0 & G). exists K. split; [exact P0|]. apply G. lia.
  Qed.
  Lemma attained sigma s n : 0 < sigma -> 0 < s -> forall pts : list (R * R), (forall p, In p pts -> 0 < fst p /\ 0 < snd p) -> forall e, 0 < e ->
    exists E, interaction (repeat (noisy_query any_value (law sigma) 1 s) (S n)) E /\
      forall p, In p pts -> top (sqrt (INR (S n)) * (s / sigma)) (fst p) (snd p) - e <= hs E (fst p) (snd p).
  Proof.
    intros Hs Hn. assert (M : 0 < s / sigma) by (apply Rdiv_lt_0_compat; assumption). induction n as [|n IH]; intros pts HP e He.
    - set (mu := s / sigma) in *. set (cuts := ins_all (map (fun p => thr mu (fst p) (snd p)) pts) []).
      destruct (plain_at sigma s cuts Hs Hn) as (F & HF & EF); [apply ins_all_sorted; constructor|].
      exists (seq_exper silent (fun _ => F)). split; [apply (inter_snoc [] silent _ (fun _ => F)); [constructor | intros; exact HF]|].
      intros p Ip. rewrite hs_seq. cbn [outs silent rsum prP prQ]. rewrite !Rmult_1_r, Rplus_0_r, EF. fold mu. cbn [INR]. rewrite sqrt_1, Rmult_1_l.
      assert (T : top mu (fst p) (snd p) <= hs (pair_at Phi mu cuts) (fst p) (snd p)); [|lra].
      apply sees. apply ins_all_In. left. apply in_map_iff. exists p. auto.
    - set (mu := s / sigma) in *. set (m2 := sqrt (INR (S n)) * mu).
      assert (Hm2 : 0 < m2) by (apply Rmult_lt_0_compat; [apply sqrt_lt_R0, lt_0_INR; lia | exact M]).
      assert (EM : sqrt (INR (S (S n))) * mu = sqrt (mu * mu + m2 * m2)).
      { rewrite <- (sqrt_square mu) at 1 by lra. rewrite <- sqrt_mult_alt by apply pos_INR. f_equal. unfold m2.
        replace (sqrt (INR (S n)) * mu * (sqrt (INR (S n)) * mu)) with (sqrt (INR (S n)) * sqrt (INR (S n)) * (mu * mu)) by ring.
        rewrite sqrt_sqrt by apply pos_INR. rewrite (S_INR (S n)). ring. }
      pose proof HPhi as (_ & c & Hc & D).
      destruct (all_of (fun p k => top (sqrt (mu * mu + m2 * m2)) (fst p) (snd p) - e / 2 <= rsum (gain Phi mu m2 (fst p) (snd p)) (cells (cuts_at k))) pts) as (k & Hk & HK).
      { intros p Ip. destruct (HP p Ip) as [Ha Hb]. apply (grid_lower Phi HPhi c Hc D mu m2 (fst p) (snd p) M Hm2 Ha Hb). lra. }
      set (cuts := cuts_at k) in *. assert (SC : StronglySorted Rlt cuts) by (apply cuts_sorted, Hk).
      destruct (plain_at sigma s cuts Hs Hn SC) as (F & HF & EF). fold mu in EF.
      set (N := INR (length (cells cuts))).
      set (e' := e / 2 / (N + 1)). assert (PN : 0 <= N) by apply pos_INR. assert (He' : 0 < e') by (apply Rdiv_lt_0_compat; lra).
      destruct (IH (flat_map (fun p => map (fun cell => (fst p * prP (pair_at Phi mu cuts) cell, snd p * prQ (pair_at Phi mu cuts) cell)) (cells cuts)) pts)) with (e := e') as (E & HE & BE); [|exact He'|].
      { intros p Ip. apply in_flat_map in Ip. destruct Ip as (p0 & I0 & Ip). apply in_map_iff in Ip. destruct Ip as (cell & <- & Ic).
        destruct (HP p0 I0). destruct (cell_pos Phi HPhi mu cuts cell SC Ic). cbn [fst snd]. split; apply Rmult_lt_0_compat; assumption. }
      exists (seq_exper E (fun _ => F)). split.
      + change (repeat ?C (S (S n))) with (C :: repeat C (S n)). rewrite repeat_cons. apply inter_snoc; [exact HE | intros; exact HF].
      + intros p Ip. rewrite EM, hs_seq. specialize (HK p Ip).
        assert (Q : rsum (gain Phi mu m2 (fst p) (snd p)) (cells cuts) - e / 2 <= rsum (fun o => hs F (fst p * prP E o) (snd p * prQ E o)) (outs E)); [|lra].
        rewrite (rsum_ext _ (fun o => hs (pair_at Phi mu cuts) (fst p * prP E o) (snd p * prQ E o))) by (intros; apply EF).
        unfold hs at 1. rewrite rsum_swap.
        apply Rle_trans with (rsum (fun cell => gain Phi mu m2 (fst p) (snd p) cell + - e') (cells cuts)).
        * rewrite rsum_plus, rsum_const. fold N. assert (N * e' <= e / 2); [|lra]. unfold e'. apply (Rmult_le_reg_r (N + 1)); [lra|].
          replace (N * (e / 2 / (N + 1)) * (N + 1)) with (N * (e / 2)) by (field; lra). lra.
        * apply rsum_le. intros cell Ic.
          assert (J : In (fst p * prP (pair_at Phi mu cuts) cell, snd p * prQ (pair_at Phi mu cuts) cell) (flat_map (fun p => map (fun cell => (fst p * prP (pair_at Phi mu cuts) cell, snd p * prQ (pair_at Phi mu cuts) cell)) (cells cuts)) pts)).
          { apply in_flat_map. exists p. split; [exact Ip|]. apply in_map_iff. exists cell. auto. }
          specialize (BE _ J). cbn [fst snd] in BE. fold m2 in BE. eapply Rle_trans; [|eapply Rle_trans; [exact BE|]].
          -- right. reflexivity.
          -- right. unfold hs. apply rsum_ext. intros o _. f_equal. ring.
  Qed.
  Lemma gaussian_noise_tight ppf fuel eps delta pp n s x : privacy_parameters eps delta = Ok pp -> (1 <= n)%Z -> 0 < s ->
    smallest_gaussian_noise Phi ppf fuel pp n s = Ok x ->
    exists sigma, x = Fin sigma /\ 0 < sigma /\
      (forall E, interaction (repeat (noisy_query any_value (law sigma) 1 s) (Z.to_nat n)) E -> dp_both E eps delta) /\
      (forall sigma', 0 < sigma' -> sigma' < sigma - 1 / 10 ^ 7 ->
         exists E, interaction (repeat (noisy_query any_value (law sigma') 1 s) (Z.to_nat n)) E /\ ~ dp E eps delta).
  Proof.
    intros HP Hn Hs HG. destruct (gaussian_noise_sound Phi HPhi ppf fuel eps delta pp n s x HP Hn Hs HG) as (sigma & -> & Hsig & B).
    exists sigma. split; [reflexivity|]. split; [assumption|]. split; [assumption|]. intros s' Hs' L.
    destruct (params_inv _ _ _ HP) as (-> & He & Hd). unfold smallest_gaussian_noise in HG. destruct (Z.ltb_spec n 0); [lia|].
    assert (Pn : 0 < IZR n) by (apply IZR_lt; lia). pose proof (sqrt_lt_R0 _ Pn) as Ps.
    assert (Pss : 0 < s * sqrt (IZR n)) by (apply Rmult_lt_0_compat; assumption).
    destruct (guarantee_tight Phi ppf HPhi fuel eps delta (s * sqrt (IZR n)) 1 _ He Hd Pss HG) as (sg & [= <-] & _ & _ & T).
    destruct (T s' Hs' L) as (F & HF & NF). destruct (plain_gdom Phi HPhi s' (s * sqrt (IZR n)) F Hs' Pss HF) as [(_ & GF) _].
    pose proof (exp_pos eps) as Pe. specialize (GF 1 (exp eps) ltac:(lra) Pe).
    assert (LT : delta < hs F 1 (exp eps)).
    { apply Rnot_le_lt. intros LE. apply NF. apply dp_iff_hockey. rewrite hockey_hs. exact LE. }
    set (e := (hs F 1 (exp eps) - delta) / 2). destruct (Z.to_nat n) as [|m] eqn:EN; [lia|].
    destruct (attained s' s m Hs' Hs [(1, exp eps)]) with (e := e) as (E & HE & BE); [intros p [<-|[]]; cbn; lra | unfold e; lra|].
    exists E. split; [exact HE|]. intros DP. apply dp_iff_hockey in DP. rewrite hockey_hs in DP. specialize (BE _ (or_introl eq_refl)). cbn [fst snd] in BE.
    replace (sqrt (INR (S m)) * (s / s')) with (s * sqrt (IZR n) / s') in BE by (rewrite <- EN, INR_IZR_INZ, Z2Nat.id by lia; field; lra).
    unfold e in BE. lra.
  Qed.
End Tight.
