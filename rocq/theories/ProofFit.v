(** What the hockey-stick tester trains its model on. *)
From Verif Require Import Base Exn XReal TypesTesters ModelTesters.

Lemma model_inputs_label {A} eps (s1 s2 : list A) a b : In (a, b) (model_inputs eps s1 s2) -> In a (if b then s2 else s1).
Proof.
  unfold model_inputs. intros H. apply in_app_or in H. destruct H as [H|H]; apply in_map_iff in H; destruct H as (x & E & H); injection E as <- <-.
  - rewrite <- (firstn_skipn (Z.to_nat (Rfloor (cutoff eps * INR (length s1)))) s1). apply in_or_app. left. exact H.
  - rewrite <- (firstn_skipn (Z.to_nat (Rfloor (cutoff eps * INR (length s2)))) s2). apply in_or_app. right. exact H.
Qed.

Lemma split_firstn {A} (s : list A) x y : split_samples s = Ok (x, y) -> x = firstn (length s / 2) s /\ y = skipn (length s / 2) s.
Proof. unfold split_samples. cbv zeta. destruct (_ : bool); [discriminate|]. intros H. injection H as <- <-. auto. Qed.

Lemma hockey_training A W (keras : list (A * bool) -> W -> res ((A -> R) * W)) t s1 s2 failure w d w' :
  hockey_estimate keras t s1 s2 failure w = Ok (d, w') ->
  exists data g, keras data w = Ok (g, w') /\
    (forall a b, In (a, b) data -> In a (firstn (length (if b then s2 else s1) / 2) (if b then s2 else s1))) /\
    hockey_compute t g (skipn (length s1 / 2) s1) (skipn (length s2 / 2) s2) failure = Ok d.
Proof.
  intros H. unfold hockey_estimate, divergence_estimate in H.
  apply bind_Ok in H. destruct H as ([x1 y1] & E1 & H). apply bind_Ok in H. destruct H as ([x2 y2] & E2 & H).
  apply bind_Ok in H. destruct H as ([g w1] & E3 & H). apply bind_Ok in H. destruct H as (d' & E4 & H). injection H as <- <-.
  apply split_firstn in E1, E2. destruct E1 as [-> ->], E2 as [-> ->]. unfold hockey_fit in E3.
  exists (model_inputs (hs_epsilon t) (firstn (length s1 / 2) s1) (firstn (length s2 / 2) s2)), g.
  split; [exact E3|]. split; [|exact E4]. intros a b Hab. apply model_inputs_label in Hab. destruct b; exact Hab.
Qed.
