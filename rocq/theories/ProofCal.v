(** Bracket search, bisection and calibration. *)
From Verif Require Import Base XReal Exn TypesEvent ModelBuilder ProofBuilder ModelAccountant ModelSearch SpecSearch ProofSearch.
Local Arguments Rltb : simpl never.
Local Arguments Rleb : simpl never.
Local Arguments Reqb : simpl never.

Ltac rsolve := repeat (match goal with
  | |- context [Rltb ?x ?y] => destruct (Rltb_spec x y)
  | H : context [Rltb ?x ?y] |- _ => revert H; destruct (Rltb_spec x y); intros H
  | |- context [Rleb ?x ?y] => destruct (Rleb_spec x y)
  | H : context [Rleb ?x ?y] |- _ => revert H; destruct (Rleb_spec x y); intros H
  | |- context [Reqb ?x ?y] => destruct (Reqb_spec x y)
  | H : context [Reqb ?x ?y] |- _ => revert H; destruct (Reqb_spec x y); intros H
  end; try reflexivity; try discriminate; try (exfalso; lra)).

Lemma Rltb_iff x y : Rltb x y = true <-> x < y.
Proof. destruct (Rltb_spec x y); split; intros; try assumption; try reflexivity; try discriminate; lra. Qed.
Lemma mul_pos a b : 0 < a * b <-> 0 < a /\ 0 < b \/ a < 0 /\ b < 0.
Proof. split; [|intros [[]|[]]; nra]. intros H. destruct (Rtotal_order a 0) as [A|[A|A]]; [right|exfalso|left]; [split; [exact A | nra] | subst; lra | split; [exact A | nra]]. Qed.
Lemma mul_neg a b : a * b < 0 <-> 0 < a /\ b < 0 \/ a < 0 /\ 0 < b.
Proof. split; [|intros [[]|[]]; nra]. intros H. destruct (Rtotal_order a 0) as [A|[A|A]]; [right|exfalso|left]; [split; [exact A | nra] | subst; lra | split; [exact A | nra]]. Qed.
Ltac xsign := cbn [xmul xltb inf_times]; try rewrite ?Rltb_iff; unfold inf_times;
  repeat match goal with |- context [Rltb ?x ?y] => destruct (Rltb_spec x y) end; cbn [xltb];
  intuition (try discriminate; try reflexivity; try lra).

Lemma prod_pos v w : xltb (Fin 0) (xmul v w) = true <-> same_sign v w.
Proof.
  unfold same_sign, positive, negative.
  destruct v as [a| | |], w as [b| | |]; [cbn [xmul xltb]; rewrite !Rltb_iff; apply mul_pos|..]; xsign.
Qed.
Lemma prod_neg v w : xltb (xmul v w) (Fin 0) = true <-> positive v /\ negative w \/ negative v /\ positive w.
Proof.
  unfold positive, negative.
  destruct v as [a| | |], w as [b| | |]; [cbn [xmul xltb]; rewrite !Rltb_iff; apply mul_neg|..]; xsign.
Qed.
Lemma sign_cases v : v <> NaN -> xeqb v (Fin 0) = false -> positive v \/ negative v.
Proof. unfold positive, negative. destruct v as [a| | |]; cbn; intros N H; try tauto. rewrite !Rltb_iff. destruct (Reqb_spec a 0); [discriminate | lra]. Qed.
Lemma zero_not v : xeqb v (Fin 0) = true -> xltb (Fin 0) v = false.
Proof. destruct v; cbn; try discriminate. intros H. rsolve. Qed.
Lemma pos_not_neg v : positive v -> negative v -> False.
Proof. unfold positive, negative. destruct v; cbn; try discriminate. intros. rsolve. Qed.
Lemma neg_not v : negative v -> xltb (Fin 0) v = false.
Proof. intros H. destruct (xltb (Fin 0) v) eqn:E; [exfalso; eapply pos_not_neg; eassumption | reflexivity]. Qed.

(** ** Bracket search *)
Section Bracket.
  Context (f : R -> res xr).
  Notation p := (widen).

  Lemma widen_step lo up k : widen lo up (S k) + (up - lo) * 2 ^ (S k) = widen lo up (S (S k)).
  Proof. unfold widen. cbn [pow]. lra. Qed.

  Lemma bracket_loop_ok lo up : forall n k lv uv r,
    f (widen lo up k) = Ok lv -> f (widen lo up (S k)) = Ok uv ->
    bracket_loop f n ((up - lo) * 2 ^ k) (widen lo up k) (widen lo up (S k)) lv uv = r ->
    (forall a b, r = Ok (a, b) -> exists j v w, (k <= j <= k + n)%nat /\ a = widen lo up j /\ b = widen lo up (S j) /\
       f a = Ok v /\ f b = Ok w /\ ~ same_sign v w /\
       forall i, (k <= i < j)%nat -> exists v w, f (widen lo up i) = Ok v /\ f (widen lo up (S i)) = Ok w /\ same_sign v w) /\
    (forall x, r = Err x -> (x = NoBracketIntervalFoundError /\
        forall i, (k <= i <= k + n)%nat -> exists v w, f (widen lo up i) = Ok v /\ f (widen lo up (S i)) = Ok w /\ same_sign v w) \/
        exists i, (S k < i <= S (k + n))%nat /\ f (widen lo up i) = Err x).
  Proof.
    induction n as [|n IH]; intros k lv uv r Hl Hu H; cbn [bracket_loop] in H;
      (destruct (xltb (Fin 0) (xmul lv uv)) eqn:P; [apply prod_pos in P|]).
    - subst r. split; [discriminate|]. intros x [= <-]. left. split; [reflexivity|]. intros i Hi. replace i with k by lia. eauto.
    - subst r. split; [|discriminate]. intros a b [= <- <-]. exists k, lv, uv. repeat split; auto; try lia; try (intros S; apply prod_pos in S; congruence).
    - replace ((up - lo) * 2 ^ k * 2) with ((up - lo) * 2 ^ S k) in H by (cbn [pow]; lra). rewrite widen_step in H.
      destruct (f (widen lo up (S (S k)))) as [v|x] eqn:Fv; cbn [bind] in H.
      + destruct (IH (S k) uv v r Hu Fv H) as [I1 I2]. split.
        * intros a b E. destruct (I1 a b E) as (j & v' & w' & J1 & -> & -> & J4 & J5 & J6 & J7). exists j, v', w'. repeat split; auto; try lia.
          intros i Hi. destruct (Nat.eq_dec i k) as [->|Ne]; [eauto | apply J7; lia].
        * intros x E. destruct (I2 x E) as [(-> & J)|(i & Hi & J)].
          -- left. split; [reflexivity|]. intros i Hi. destruct (Nat.eq_dec i k) as [->|Ne]; [eauto | apply J; lia].
          -- right. exists i. split; [lia | exact J].
      + subst r. split; [discriminate|]. intros x' [= <-]. right. exists (S (S k)). split; [lia | exact Fv].
    - subst r. split; [|discriminate]. intros a b [= <- <-]. exists k, lv, uv. repeat split; auto; try lia; try (intros S; apply prod_pos in S; congruence).
  Qed.

  Lemma widen_0 lo up : widen lo up 0 = lo.
  Proof. unfold widen. cbn. lra. Qed.
  Lemma widen_1 lo up : widen lo up 1 = up.
  Proof. unfold widen. cbn. lra. Qed.

  Lemma bracket_ok lo up : lo < up ->
    (forall a b, bracket_search f lo up = Ok (a, b) -> exists j v w, (j <= 30)%nat /\ a = widen lo up j /\ b = widen lo up (S j) /\
       f a = Ok v /\ f b = Ok w /\ ~ same_sign v w /\
       forall i, (i < j)%nat -> exists v w, f (widen lo up i) = Ok v /\ f (widen lo up (S i)) = Ok w /\ same_sign v w) /\
    (forall x, bracket_search f lo up = Err x -> (x = NoBracketIntervalFoundError /\
        forall i, (i <= 30)%nat -> exists v w, f (widen lo up i) = Ok v /\ f (widen lo up (S i)) = Ok w /\ same_sign v w) \/
        exists i, (i <= 31)%nat /\ f (widen lo up i) = Err x).
  Proof.
    intros L. unfold bracket_search. rewrite Rleb_false by lra.
    destruct (f lo) as [lv|x] eqn:Fl; cbn [bind].
    2:{ split; [discriminate|]. intros x' [= <-]. right. exists O. rewrite widen_0. split; [lia | exact Fl]. }
    destruct (f up) as [uv|x] eqn:Fu; cbn [bind].
    2:{ split; [discriminate|]. intros x' [= <-]. right. exists 1%nat. rewrite widen_1. split; [lia | exact Fu]. }
    rewrite <- (widen_0 lo up) in Fl. rewrite <- (widen_1 lo up) in Fu.
    replace (bracket_loop f 30 (up - lo) lo up lv uv) with (bracket_loop f 30 ((up - lo) * 2 ^ 0) (widen lo up 0) (widen lo up 1) lv uv).
    2:{ rewrite widen_0, widen_1. cbn [pow]. rewrite Rmult_1_r. reflexivity. }
    destruct (bracket_loop_ok lo up 30 0 lv uv _ Fl Fu eq_refl) as [I1 I2]. split.
    - intros a b E. destruct (I1 a b E) as (j & v & w & J1 & J2 & J3 & J4 & J5 & J6 & J7). exists j, v, w. repeat split; auto; try lia. intros i Hi. apply J7. lia.
    - intros x E. destruct (I2 x E) as [(-> & J)|(i & Hi & J)]; [left; split; [reflexivity | intros i Hi; apply J; lia] | right; exists i; split; [lia | exact J]].
  Qed.
End Bracket.

Lemma bracket_points f g lo up : lo < up -> (forall k, (k <= 31)%nat -> f (widen lo up k) = g (widen lo up k)) ->
  bracket_search f lo up = bracket_search g lo up.
Proof.
  intros L H. unfold bracket_search. rewrite Rleb_false by lra.
  pose proof (H 0%nat ltac:(lia)) as H0. pose proof (H 1%nat ltac:(lia)) as H1. rewrite widen_0 in H0. rewrite widen_1 in H1.
  rewrite H0, H1. destruct (g lo) as [lv|]; cbn [bind]; [|reflexivity]. destruct (g up) as [uv|]; cbn [bind]; [|reflexivity].
  assert (Q : forall h, bracket_loop h 30 (up - lo) lo up lv uv = bracket_loop h 30 ((up - lo) * 2 ^ 0) (widen lo up 0) (widen lo up 1) lv uv).
  { intros h. rewrite widen_0, widen_1. cbn [pow]. rewrite Rmult_1_r. reflexivity. }
  rewrite !Q. clear Q.
  assert (K : forall n k lv uv, (k + n <= 30)%nat ->
    bracket_loop f n ((up - lo) * 2 ^ k) (widen lo up k) (widen lo up (S k)) lv uv =
    bracket_loop g n ((up - lo) * 2 ^ k) (widen lo up k) (widen lo up (S k)) lv uv).
  { induction n as [|n IH]; intros k lv0 uv0 Hk; cbn [bracket_loop]; [reflexivity|]. destruct (xltb _ _); [|reflexivity].
    replace ((up - lo) * 2 ^ k * 2) with ((up - lo) * 2 ^ S k) by (cbn [pow]; lra). rewrite widen_step, (H (S (S k))) by lia.
    destruct (g _); cbn [bind]; [|reflexivity]. apply IH. lia. }
  apply K. lia.
Qed.

(** ** Bisection *)
Section Bisect.
  Context (f : R -> res xr).
  Hypothesis NN : never_nan f.

  Definition found (l u tol x : R) : Prop := l <= x <= u /\ exists v, f x = Ok v /\ xleb v (Fin 0) = true /\
    (xeqb v (Fin 0) = true \/
     negative v /\ exists y w, l <= y <= u /\ f y = Ok w /\ positive w /\ Rabs (x - y) <= tol).

  Lemma neg_le v : negative v -> xleb v (Fin 0) = true.
  Proof. unfold negative. destruct v; cbn; try discriminate; try reflexivity. intros. rsolve. Qed.
  Lemma eq_le v : xeqb v (Fin 0) = true -> xleb v (Fin 0) = true.
  Proof. destruct v; cbn; try discriminate. intros. rsolve. Qed.
  Lemma found_wider l u l' u' tol x : l' <= l -> u <= u' -> found l u tol x -> found l' u' tol x.
  Proof.
    intros H1 H2 (Hx & v & Fv & Lv & [Z|(Ng & y & w & Hy & Fy & Py & D)]); (split; [lra|]); exists v; (split; [exact Fv|]); (split; [exact Lv|]); [left; exact Z|].
    right. split; [exact Ng|]. exists y, w. split; [lra | auto].
  Qed.

  Lemma bisect_go_ok tol : forall fuel l u lv uv x, l <= u -> f l = Ok lv -> f u = Ok uv ->
    bisect_go f fuel tol l u lv uv = Ok x -> found l u tol x.
  Proof.
    induction fuel as [|fuel IH]; intros l u lv uv x LU Fl Fu H; [discriminate|]. cbn [bisect_go] in H.
    destruct (xeqb lv (Fin 0)) eqn:Zl.
    { injection H as <-. split; [lra|]. exists lv. split; [exact Fl|]. split; [apply eq_le, Zl | left; exact Zl]. }
    destruct (xeqb uv (Fin 0)) eqn:Zu.
    { injection H as <-. split; [lra|]. exists uv. split; [exact Fu|]. split; [apply eq_le, Zu | left; exact Zu]. }
    destruct (xltb (Fin 0) (xmul lv uv)) eqn:P; [discriminate|].
    assert (Nl : lv <> NaN) by (intros ->; eapply NN; exact Fl).
    assert (Nu : uv <> NaN) by (intros ->; eapply NN; exact Fu).
    destruct (Rleb_spec (u - l) tol) as [T|T].
    { injection H as <-.
      destruct (sign_cases lv Nl Zl) as [Pl|Ng]; destruct (sign_cases uv Nu Zu) as [Pu|Nu'].
      - exfalso. assert (xltb (Fin 0) (xmul lv uv) = true) by (apply prod_pos; left; auto). congruence.
      - rewrite (proj1 (Bool.not_true_iff_false _) (fun H => pos_not_neg lv Pl H)). split; [lra|].
        exists uv. split; [exact Fu|]. split; [apply neg_le, Nu'|]. right. split; [exact Nu'|]. exists l, lv. split; [lra|].
        split; [exact Fl|]. split; [exact Pl|]. rewrite Rabs_right; lra.
      - unfold negative in Ng. rewrite Ng. split; [lra|].
        exists lv. split; [exact Fl|]. split; [apply neg_le, Ng|]. right. split; [exact Ng|]. exists u, uv. split; [lra|].
        split; [exact Fu|]. split; [exact Pu|]. rewrite Rabs_left1; lra.
      - exfalso. assert (xltb (Fin 0) (xmul lv uv) = true) by (apply prod_pos; right; auto). congruence. }
    destruct (f ((l + u) / 2)) as [mv|] eqn:Fm; [|discriminate]. cbn [bind] in H.
    destruct (xeqb mv (Fin 0)) eqn:Zm.
    { injection H as <-. split; [lra|]. exists mv. split; [exact Fm|]. split; [apply eq_le, Zm | left; exact Zm]. }
    destruct (xltb (xmul lv mv) (Fin 0)).
    - eapply found_wider; [| |eapply IH; [|exact Fl|exact Fm|exact H]]; lra.
    - eapply found_wider; [| |eapply IH; [|exact Fm|exact Fu|exact H]]; lra.
  Qed.
  Lemma bisect_ok fuel l u tol x : l <= u -> bisect f fuel l u tol = Ok x -> found l u tol x.
  Proof.
    unfold bisect. destruct (f l) as [lv|] eqn:Fl; [|discriminate]. destruct (f u) as [uv|] eqn:Fu; [|discriminate]. cbn [bind].
    intros LU H. eapply bisect_go_ok; eassumption.
  Qed.

  (** Without any assumption on the interval: the value is never positive. *)
  Lemma bisect_go_neg tol : forall fuel l u lv uv x, f l = Ok lv -> f u = Ok uv ->
    bisect_go f fuel tol l u lv uv = Ok x -> exists v, f x = Ok v /\ xleb v (Fin 0) = true.
  Proof.
    induction fuel as [|fuel IH]; intros l u lv uv x Fl Fu H; [discriminate|]. cbn [bisect_go] in H.
    destruct (xeqb lv (Fin 0)) eqn:Zl; [injection H as <-; exists lv; split; [exact Fl | apply eq_le, Zl]|].
    destruct (xeqb uv (Fin 0)) eqn:Zu; [injection H as <-; exists uv; split; [exact Fu | apply eq_le, Zu]|].
    destruct (xltb (Fin 0) (xmul lv uv)) eqn:P; [discriminate|].
    assert (Nl : lv <> NaN) by (intros ->; eapply NN; exact Fl).
    assert (Nu : uv <> NaN) by (intros ->; eapply NN; exact Fu).
    destruct (Rleb_spec (u - l) tol) as [T|T].
    { injection H as <-. destruct (xltb lv (Fin 0)) eqn:Sl.
      - exists lv. split; [exact Fl | apply neg_le, Sl].
      - exists uv. split; [exact Fu|]. apply neg_le. destruct (sign_cases lv Nl Zl) as [Pl|Ng]; [|unfold negative in Ng; congruence].
        destruct (sign_cases uv Nu Zu) as [Pu|Nu']; [|exact Nu'].
        exfalso. assert (xltb (Fin 0) (xmul lv uv) = true) by (apply prod_pos; left; auto). congruence. }
    destruct (f ((l + u) / 2)) as [mv|] eqn:Fm; [|discriminate]. cbn [bind] in H.
    destruct (xeqb mv (Fin 0)) eqn:Zm; [injection H as <-; exists mv; split; [exact Fm | apply eq_le, Zm]|].
    destruct (xltb (xmul lv mv) (Fin 0)); [exact (IH _ _ _ _ _ Fl Fm H) | exact (IH _ _ _ _ _ Fm Fu H)].
  Qed.
  Lemma bisect_neg fuel l u tol x : bisect f fuel l u tol = Ok x -> exists v, f x = Ok v /\ xleb v (Fin 0) = true.
  Proof.
    unfold bisect. destruct (f l) as [lv|] eqn:Fl; [|discriminate]. destruct (f u) as [uv|] eqn:Fu; [|discriminate]. cbn [bind].
    intros H. exact (bisect_go_neg tol fuel l u lv uv x Fl Fu H).
  Qed.

  (** It returns within a number of steps logarithmic in the width. *)
  Lemma bisect_go_total tol : 0 < tol -> forall n l u lv uv, f l = Ok lv -> f u = Ok uv -> ~ same_sign lv uv ->
    (forall x, l <= x <= u -> exists v, f x = Ok v) -> l <= u -> u - l <= tol * 2 ^ n ->
    forall fuel, (n < fuel)%nat -> exists x, bisect_go f fuel tol l u lv uv = Ok x.
  Proof.
    intros Ht. induction n as [|n IH]; intros l u lv uv Fl Fu NS T LU W fuel Hf; (destruct fuel as [|fuel]; [lia|]); cbn [bisect_go];
      (destruct (xeqb lv (Fin 0)) eqn:Zl; [eexists; reflexivity|]); (destruct (xeqb uv (Fin 0)) eqn:Zu; [eexists; reflexivity|]);
      (destruct (xltb (Fin 0) (xmul lv uv)) eqn:P; [apply prod_pos in P; contradiction|]).
    - cbn [pow] in W. rewrite Rleb_true by lra. eexists; reflexivity.
    - destruct (Rleb_spec (u - l) tol) as [X|X]; [eexists; reflexivity|].
      destruct (T ((l + u) / 2) ltac:(lra)) as [mv Fm]. rewrite Fm. cbn [bind].
      destruct (xeqb mv (Fin 0)) eqn:Zm; [eexists; reflexivity|].
      assert (Nl : lv <> NaN) by (intros ->; eapply NN; exact Fl).
      assert (Nu : uv <> NaN) by (intros ->; eapply NN; exact Fu).
      assert (Nm : mv <> NaN) by (intros ->; eapply NN; exact Fm).
      cbn [pow] in W.
      destruct (xltb (xmul lv mv) (Fin 0)) eqn:Q.
      + apply prod_neg in Q. apply IH; auto; try lra; try lia; try (intros x Hx; apply T; lra).
        intros [[A B]|[A B]]; destruct Q as [[C D]|[C D]]; eauto using pos_not_neg.
      + apply IH; auto; try lra; try lia; try (intros x Hx; apply T; lra).
        intros SS. destruct (sign_cases lv Nl Zl) as [Pl|Ng]; destruct (sign_cases mv Nm Zm) as [Pm|Nm'].
        * apply NS. left. split; [exact Pl|]. destruct SS as [[_ B]|[A _]]; [exact B | exfalso; eapply pos_not_neg; eassumption].
        * assert (xltb (xmul lv mv) (Fin 0) = true) by (apply prod_neg; left; auto). congruence.
        * assert (xltb (xmul lv mv) (Fin 0) = true) by (apply prod_neg; right; auto). congruence.
        * apply NS. right. split; [exact Ng|]. destruct SS as [[A _]|[_ B]]; [exfalso; eapply pos_not_neg; eassumption | exact B].
  Qed.
  Lemma bisect_total tol l u lv uv n fuel : 0 < tol -> l <= u -> f l = Ok lv -> f u = Ok uv -> ~ same_sign lv uv ->
    (forall x, l <= x <= u -> exists v, f x = Ok v) -> u - l <= tol * 2 ^ n -> (n < fuel)%nat ->
    exists x, bisect f fuel l u tol = Ok x.
  Proof. intros Ht LU Fl Fu NS T W Hf. unfold bisect. rewrite Fl, Fu. cbn [bind]. eapply bisect_go_total; eassumption. Qed.
  Lemma bisect_same tol l u lv uv fuel : f l = Ok lv -> f u = Ok uv -> same_sign lv uv -> bisect f (S fuel) l u tol = Err ValueError.
  Proof.
    intros Fl Fu SS. unfold bisect. rewrite Fl, Fu. cbn [bind bisect_go].
    assert (Z : forall v, positive v \/ negative v -> xeqb v (Fin 0) = false).
    { unfold positive, negative. intros [a| | |]; cbn; intros []; try reflexivity; try discriminate; rsolve. }
    rewrite (Z lv), (Z uv), (proj2 (prod_pos lv uv) SS); [reflexivity | |]; destruct SS as [[]|[]]; auto.
  Qed.
End Bisect.

(** ** Calibration *)
Section Cal.
  Context {S : Type} (mc : bool -> S -> event num -> Z -> S * mc_out) (get_epsilon : S -> R -> res xr).
  Context (fresh : accountant S) (make_event : num -> res (event num)).
  Context (brentq : (R -> res xr) -> R -> R -> R -> brent_out).
  Notation eps_of := (fresh_epsilon mc get_epsilon fresh).
  Notation gap := (epsilon_gap mc get_epsilon fresh make_event).
  Notation peps := (param_epsilon mc get_epsilon fresh make_event).

  Lemma fresh_reports e delta v : eps_of e delta = Ok v <-> reports mc get_epsilon fresh e delta v.
  Proof.
    unfold fresh_epsilon, reports. destruct (acc_compose mc fresh (EventObj e) 1) as [A' [[]|x]] eqn:E; cbn [bind].
    - split; [intros H; exists A'; auto|]. intros (A & [= <-] & H). exact H.
    - split; [discriminate|]. intros (A & [=] & _).
  Qed.

  Lemma compose_res b1 b2 : forall e n, snd (builder_compose b1 e n) = snd (builder_compose b2 e n).
  Proof. intros e. induction e using event_ind'; intros n; cbn [builder_compose]; destruct (n <? 1)%Z; cbn [snd]; auto. Qed.
  Lemma compose_cached A e n : forall A' r, acc_compose mc (fst (acc_get_ledger A)) (EventObj e) n = (A', r) ->
    exists A'', acc_compose mc A (EventObj e) n = (A'', r) /\ acc_state A'' = acc_state A'.
  Proof.
    intros A' r. unfold acc_get_ledger, builder_build.
    destruct (composed_event (acc_ledger A)) as [c|] eqn:C; cbn [fst].
    { destruct A as [s b]. cbn [acc_state acc_ledger]. intros H. eauto. }
    cbn [acc_compose acc_state acc_ledger]. destruct (mc false (acc_state A) e n) as [s1 r1].
    pose proof (compose_res (mkBuilder (event_counts (acc_ledger A)) (Some (composed_of (event_counts (acc_ledger A))))) (acc_ledger A) e n) as B.
    destruct r1; try (intros [= <- <-]; eexists; split; reflexivity).
    destruct (builder_compose (mkBuilder _ _) e n) as [b1 q1]. destruct (builder_compose (acc_ledger A) e n) as [b2 q2].
    cbn [snd] in B. subst q1. destruct q2 as [[]|x]; [|intros [= <- <-]; eexists; split; reflexivity].
    destruct (mc true s1 e n) as [s2 r2]. destruct r2; intros [= <- <-]; eexists; split; reflexivity.
  Qed.

  Lemma gap_eps discrete eps delta x w : gap discrete eps delta x = Ok w ->
    exists v, peps (if discrete then PyInt (Rround x) else PyFloat x) delta = Ok v /\ w = xsub v (Fin eps).
  Proof.
    unfold epsilon_gap, param_epsilon. set (q := if discrete then _ else _). destruct (make_event q) as [e|]; cbn [bind]; [|discriminate]. destruct (acc_get_ledger fresh) as [A L] eqn:EL. destruct L; try discriminate.
    destruct (acc_compose mc A _ 1) as [A' [[]|x']] eqn:EC; cbn [bind]; [|discriminate].
    replace A with (fst (acc_get_ledger fresh)) in EC by (rewrite EL; reflexivity).
    destruct (compose_cached _ _ _ _ _ EC) as (A'' & EC' & ES). unfold fresh_epsilon. rewrite EC'. cbn [bind]. rewrite ES.
    destruct (get_epsilon (acc_state A') delta) as [v|]; cbn [bind]; [|discriminate]. intros [= <-]. eauto.
  Qed.
  Lemma xsub_le v eps : xleb (xsub v (Fin eps)) (Fin 0) = true -> xleb v (Fin eps) = true.
  Proof. destruct v as [a| | |]; cbn; try discriminate; try reflexivity. intros. rsolve. Qed.
  Lemma xsub_not_pos v eps : v <> NaN -> xltb (Fin 0) (xsub v (Fin eps)) = false -> xleb v (Fin eps) = true.
  Proof. destruct v as [a| | |]; cbn; try discriminate; try reflexivity; try congruence. intros. rsolve. Qed.
  Lemma xsub_neg v eps : xltb (xsub v (Fin eps)) (Fin 0) = true -> xleb v (Fin eps) = true.
  Proof. destruct v as [a| | |]; cbn; try discriminate; try reflexivity. intros. rsolve. Qed.
  Lemma xsub_nan v eps : v <> NaN -> xsub v (Fin eps) <> NaN.
  Proof. destruct v as [a| | |]; cbn; congruence. Qed.

  (** What [calibrate] amounts to once the arguments were accepted. *)
  Lemma calibrate_inv fuel eps delta bi discrete tol p :
    calibrate mc get_epsilon fresh make_event brentq fuel eps delta bi discrete tol = Ok p ->
    0 <= eps /\ 0 <= delta <= 1 /\ 0 < tolerance discrete tol /\ exists a b root,
      (bi = Explicit a b \/ a < b) /\
      p = (if discrete then PyInt (Rround root) else PyFloat root) /\
      let t := tolerance discrete tol in let g := gap discrete eps delta in
      ((exists r v, brentq g a b t = BrentRoot r true /\ g r = Ok v /\ (xltb (Fin 0) v = false /\ root = r \/
          xltb (Fin 0) v = true /\ (exists w, g (r + t) = Ok w /\ negative w /\ root = r + t) \/
          xltb (Fin 0) v = true /\ (exists w1, g (r + t) = Ok w1 /\ ~ negative w1) /\ (exists w, g (r - t) = Ok w /\ negative w /\ root = r - t))) \/
       bisect g fuel a b t = Ok root).
  Proof.
    unfold calibrate. destruct (Rltb_spec eps 0) as [|E]; [discriminate|].
    destruct (Rleb_spec 0 delta) as [D1|]; [|discriminate]. destruct (Rleb_spec delta 1) as [D2|]; [|discriminate]. cbn [andb negb].
    intros H.
    assert (exists t, (match tol with None => Ok (if discrete then 1 else / 1000000)
      | Some t => if discrete then Ok (Rmax t 1) else if Rleb t 0 then Err ValueError else Ok t end) = Ok t /\ t = tolerance discrete tol /\ 0 < t) as (t & Et & Tt & Pt).
    { unfold tolerance. destruct tol as [t|].
      - destruct discrete; [exists (Rmax t 1); repeat split; pose proof (Rmax_r t 1); lra|].
        destruct (Rleb_spec t 0); [discriminate H|]. exists t. repeat split; lra.
      - destruct discrete; eexists; repeat split; lra. }
    rewrite Et in H. cbn [bind] in H. rewrite <- Tt. set (g := gap discrete eps delta) in *.
    split; [lra|]. split; [lra|]. split; [exact Pt|].
    set (bi' := match bi with NoInterval => LowerAndGuess 0 1 | _ => bi end) in H.
    assert (exists a b, (match bi' with LowerAndGuess a b => bracket_search g a b | Explicit a b => Ok (a, b) | _ => Err TypeError end) = Ok (a, b) /\ (bi = Explicit a b \/ a < b)) as (a & b & Eab & Hab).
    { destruct bi' as [|lo up|a b|] eqn:B; try discriminate.
      - destruct (bracket_search g lo up) as [[a b]|] eqn:BS; [|discriminate]. exists a, b. split; [reflexivity|]. right.
        destruct (Rle_dec up lo) as [LU|LU].
        { unfold bracket_search in BS. rewrite Rleb_true in BS by exact LU. discriminate. }
        destruct (bracket_ok g lo up ltac:(lra)) as [I _]. destruct (I a b BS) as (j & _ & _ & _ & -> & -> & _).
        unfold widen. pose proof (pow_lt 2 j ltac:(lra)). cbn [pow]. nra.
      - exists a, b. split; [reflexivity|]. left. destruct bi; try discriminate; exact B. }
    rewrite Eab in H. cbn [bind] in H. exists a, b.
    destruct (brentq g a b t) as [r conv|x] eqn:Br; [|discriminate]. destruct conv.
    - destruct (g r) as [v|] eqn:Gr; cbn [bind] in H; [|discriminate]. destruct (xltb (Fin 0) v) eqn:Pv.
      + destruct (g (r + t)) as [w1|] eqn:G1; cbn [bind] in H; [|discriminate]. destruct (xltb w1 (Fin 0)) eqn:N1; cbn [bind] in H.
        * injection H as <-. exists (r + t). split; [exact Hab|]. split; [reflexivity|]. left. exists r, v. split; [reflexivity|]. split; [exact Gr|]. right. left. eauto.
        * destruct (g (r - t)) as [w2|] eqn:G2; cbn [bind] in H; [|discriminate]. destruct (xltb w2 (Fin 0)) eqn:N2; cbn [bind] in H.
          -- injection H as <-. exists (r - t). split; [exact Hab|]. split; [reflexivity|]. left. exists r, v. split; [reflexivity|]. split; [exact Gr|]. right. right.
             split; [exact Pv|]. split; [exists w1; split; [exact G1 | unfold negative; congruence]|]. eauto.
          -- destruct (bisect g fuel a b t) as [root|] eqn:Bi; cbn [bind] in H; [|discriminate]. injection H as <-. exists root. split; [exact Hab|]. split; [reflexivity|]. right. reflexivity.
      + injection H as <-. exists r. split; [exact Hab|]. split; [reflexivity|]. left. exists r, v. split; [reflexivity|]. split; [exact Gr|]. left. auto.
    - cbn [bind] in H. destruct (bisect g fuel a b t) as [root|] eqn:Bi; cbn [bind] in H; [|discriminate]. injection H as <-. exists root. split; [exact Hab|]. split; [reflexivity|]. right. reflexivity.
  Qed.

  Hypothesis not_nan : forall e delta, eps_of e delta <> Ok NaN.
  Lemma peps_not_nan p delta : peps p delta <> Ok NaN.
  Proof. unfold param_epsilon. destruct (make_event p); cbn [bind]; [apply not_nan | discriminate]. Qed.
  Lemma gap_not_nan discrete eps delta : never_nan (gap discrete eps delta).
  Proof. intros x H. destruct (gap_eps _ _ _ _ _ H) as (v & Hv & E). eapply xsub_nan; [|symmetry; exact E]. intros ->. eapply peps_not_nan; exact Hv. Qed.

  Lemma calibrate_sound fuel eps delta bi discrete tol p :
    calibrate mc get_epsilon fresh make_event brentq fuel eps delta bi discrete tol = Ok p ->
    (exists e v, make_event p = Ok e /\ eps_of e delta = Ok v /\ xleb v (Fin eps) = true) /\
    match p with PyInt _ => discrete = true | PyFloat _ => discrete = false | PyInf => False end.
  Proof.
    intros H. destruct (calibrate_inv _ _ _ _ _ _ _ H) as (_ & _ & _ & a & b & root & _ & Hp & C).
    assert (K : exists w, gap discrete eps delta root = Ok w /\ xltb (Fin 0) w = false).
    { cbv zeta in C. destruct C as [(r & v & _ & G & [(P & ->)|[(P & w & G1 & N & ->)|(P & _ & w & G1 & N & ->)]])|B].
      - eauto.
      - exists w. split; [exact G1 | apply neg_not, N].
      - exists w. split; [exact G1 | apply neg_not, N].
      - destruct (bisect_neg _ (gap_not_nan discrete eps delta) _ _ _ _ _ B) as (v & G & L). exists v. split; [exact G|].
        destruct v; cbn in *; try reflexivity; try discriminate. rsolve. }
    destruct K as (w & G & N). destruct (gap_eps _ _ _ _ _ G) as (v & Hv & ->). split.
    - rewrite Hp. pose proof (peps_not_nan (if discrete then PyInt (Rround root) else PyFloat root) delta) as NN. unfold param_epsilon in Hv, NN.
      destruct (make_event _) as [e|]; cbn [bind] in *; [|discriminate]. exists e, v. split; [reflexivity|]. split; [exact Hv|]. apply xsub_not_pos; [intros ->; exact (NN Hv) | exact N].
    - rewrite Hp. destruct discrete; reflexivity.
  Qed.

  Lemma gap_cont eps delta x w : gap false eps delta x = Ok w -> exists v, peps (PyFloat x) delta = Ok v /\ w = xsub v (Fin eps).
  Proof. apply gap_eps. Qed.
  Lemma Rabs_inv x y : Rabs x <= y -> - y <= x <= y.
  Proof. unfold Rabs. destruct (Rcase_abs x); lra. Qed.
  (** Near-optimality, when the root finder keeps its contract. *)
  Lemma calibrate_optimal fuel eps delta bi tol p best :
    best_param (fun x => peps (PyFloat x) delta) eps best ->
    (match bi with Explicit a b => a <= b | _ => True end) ->
    (forall a b t r, 0 < t -> brentq (gap false eps delta) a b t = BrentRoot r true -> Rabs (r - best) <= t) ->
    calibrate mc get_epsilon fresh make_event brentq fuel eps delta bi false tol = Ok p ->
    exists x, p = PyFloat x /\ Rabs (x - best) <= tolerance false tol.
  Proof.
    intros B O Br H. destruct (calibrate_inv _ _ _ _ _ _ _ H) as (_ & _ & Pt & a & b & root & Hab & Hp & C).
    exists root. split; [exact Hp|]. set (t := tolerance false tol) in *. cbv zeta in C.
    assert (LU : a <= b) by (destruct Hab as [->|]; [exact O | lra]).
    destruct B as [(vb & Eb & Lb) B].
    assert (Above : forall x w, gap false eps delta x = Ok w -> xltb (Fin 0) w = true -> x <> best /\ forall v, peps (PyFloat x) delta = Ok v -> xltb v (Fin eps) = false).
    { intros x w G P. destruct (gap_cont _ _ _ _ G) as (v & Ev & ->). assert (L : xltb (Fin eps) v = true).
      { destruct v; cbn in P |- *; try discriminate; try reflexivity. rewrite Rltb_iff in P |- *. lra. }
      split.
      - intros ->. rewrite Eb in Ev. injection Ev as <-. destruct vb; cbn in L, Lb; try discriminate. rsolve.
      - intros v' Ev'. rewrite Ev in Ev'. injection Ev' as <-. destruct v; cbn in L |- *; try discriminate; try reflexivity. rewrite Rltb_iff in L. apply Rltb_false. lra. }
    assert (Below : forall x w, gap false eps delta x = Ok w -> xltb (Fin 0) w = false -> forall v, peps (PyFloat x) delta = Ok v -> xltb (Fin eps) v = false).
    { intros x w G P v Ev. destruct (gap_cont _ _ _ _ G) as (v' & Ev' & ->). rewrite Ev in Ev'. injection Ev' as <-.
      destruct v; cbn in P |- *; try discriminate; try reflexivity. apply Rltb_false. apply Bool.not_true_iff_false in P. rewrite Rltb_iff in P. lra. }
    assert (Strict : forall x w, gap false eps delta x = Ok w -> negative w -> forall v, peps (PyFloat x) delta = Ok v -> xltb v (Fin eps) = true).
    { intros x w G P v Ev. destruct (gap_cont _ _ _ _ G) as (v' & Ev' & ->). rewrite Ev in Ev'. injection Ev' as <-.
      unfold negative in P. destruct v; cbn in P |- *; try discriminate; try reflexivity. rewrite Rltb_iff in P |- *. lra. }
    assert (Zero : forall x w, gap false eps delta x = Ok w -> xeqb w (Fin 0) = true -> forall v, peps (PyFloat x) delta = Ok v -> xltb v (Fin eps) = false /\ xltb (Fin eps) v = false).
    { intros x w G P v Ev. destruct (gap_cont _ _ _ _ G) as (v' & Ev' & ->). rewrite Ev in Ev'. injection Ev' as <-.
      destruct v; cbn in P |- *; try discriminate. destruct (Reqb_spec (r + - eps) 0); [|discriminate]. split; apply Rltb_false; lra. }
    assert (conv : forall x w, gap false eps delta x = Ok w -> exists v, peps (PyFloat x) delta = Ok v).
    { intros x w G. destruct (gap_cont _ _ _ _ G) as (v & Ev & _). eauto. }
    destruct C as [(r & v & Rt & G & Cs)|Bi].
    - pose proof (Br _ _ _ _ Pt Rt) as Near. apply Rabs_inv in Near.
      destruct Cs as [(P & ->)|[(P & w & G1 & N & ->)|(P & (w1 & G1 & N1) & w & G2 & N & ->)]].
      + apply Rabs_le. lra.
      + destruct (Above _ _ G P) as [Ne Ab]. destruct B as [[B1 B2]|[B1 B2]].
        * destruct (Rtotal_order r best) as [X|[X|X]]; [apply Rabs_le; lra | contradiction|].
          destruct (conv _ _ G) as [v0 E0]; assert (L0 := B2 r v0 X E0). rewrite (Ab _ E0) in L0. discriminate.
        * exfalso. destruct (Rtotal_order r best) as [X|[X|X]]; [|contradiction|].
          -- destruct (conv _ _ G) as [v0 E0]; assert (L0 := B2 r v0 X E0). rewrite (Ab _ E0) in L0. discriminate.
          -- destruct (conv _ _ G1) as [v0 E0]; assert (L0 := B1 (r + t) v0 ltac:(lra) E0). rewrite (Below _ _ G1 (neg_not _ N) _ E0) in L0. discriminate.
      + destruct (Above _ _ G P) as [Ne Ab]. destruct B as [[B1 B2]|[B1 B2]].
        * exfalso. destruct (Rtotal_order r best) as [X|[X|X]]; [|contradiction|].
          -- destruct (conv _ _ G2) as [v0 E0]; assert (L0 := B1 (r - t) v0 ltac:(lra) E0). rewrite (Below _ _ G2 (neg_not _ N) _ E0) in L0. discriminate.
          -- destruct (conv _ _ G) as [v0 E0]; assert (L0 := B2 r v0 X E0). rewrite (Ab _ E0) in L0. discriminate.
        * destruct (Rtotal_order r best) as [X|[X|X]]; [|contradiction|apply Rabs_le; lra].
          destruct (conv _ _ G) as [v0 E0]; assert (L0 := B2 r v0 X E0). rewrite (Ab _ E0) in L0. discriminate.
    - destruct (bisect_ok _ (gap_not_nan false eps delta) _ _ _ _ _ LU Bi) as (_ & v & G & _ & [Z|(N & y & w & _ & Gy & Py & Dy)]).
      + assert (root = best) as ->; [|replace (best - best) with 0 by lra; rewrite Rabs_R0; lra].
        destruct (Rtotal_order root best) as [X|[X|X]]; [exfalso|exact X|exfalso]; destruct B as [[B1 B2]|[B1 B2]];
          match goal with
          | Q : forall x v, x < best -> _, X : root < best |- _ => destruct (conv _ _ G) as [v0 E0]; assert (L0 := Q root v0 X E0)
          | Q : forall x v, best < x -> _, X : root > best |- _ => destruct (conv _ _ G) as [v0 E0]; assert (L0 := Q root v0 X E0)
          end; destruct (Zero _ _ G Z _ E0); congruence.
      + pose proof (Strict _ _ G N) as St. destruct (Above _ _ Gy Py) as [Ne Ab]. apply Rabs_inv in Dy. apply Rabs_le.
        destruct B as [[B1 B2]|[B1 B2]].
        * assert (best <= root). { destruct (Rle_dec best root); [assumption|]. destruct (conv _ _ G) as [v0 E0]; assert (L0 := B1 root v0 ltac:(lra) E0). pose proof (Below _ _ G (neg_not _ N) _ E0). congruence. }
          assert (y <= best). { destruct (Rle_dec y best); [assumption|]. destruct (conv _ _ Gy) as [v0 E0]; assert (L0 := B2 y v0 ltac:(lra) E0). pose proof (Ab _ E0). congruence. }
          lra.
        * assert (root <= best). { destruct (Rle_dec root best); [assumption|]. destruct (conv _ _ G) as [v0 E0]; assert (L0 := B1 root v0 ltac:(lra) E0). pose proof (Below _ _ G (neg_not _ N) _ E0). congruence. }
          assert (best <= y). { destruct (Rle_dec best y); [assumption|]. destruct (conv _ _ Gy) as [v0 E0]; assert (L0 := B2 y v0 ltac:(lra) E0). pose proof (Ab _ E0). congruence. }
          lra.
  Qed.

  Lemma gap_total (discrete : bool) eps delta x v : snd (acc_get_ledger fresh) = NoOp ->
    peps (if discrete then PyInt (Rround x) else PyFloat x) delta = Ok v -> gap discrete eps delta x = Ok (xsub v (Fin eps)).
  Proof.
    unfold epsilon_gap, param_epsilon. set (q := if discrete then _ else _). destruct (make_event q) as [e|]; cbn [bind]; [|discriminate]. intros L H. destruct (acc_get_ledger fresh) as [A L'] eqn:EL. cbn [snd] in L. rewrite L in *. clear L.
    destruct (acc_compose mc A _ 1) as [A' r] eqn:EC.
    replace A with (fst (acc_get_ledger fresh)) in EC by (rewrite EL; reflexivity).
    destruct (compose_cached _ _ _ _ _ EC) as (A'' & EC' & ES). unfold fresh_epsilon in H. rewrite EC' in H.
    destruct r as [[]|]; cbn [bind] in *; [|discriminate]. rewrite <- ES, H. reflexivity.
  Qed.
  Lemma xsub_sides v w eps : xleb v (Fin eps) = true -> xleb (Fin eps) w = true ->
    ~ same_sign (xsub v (Fin eps)) (xsub w (Fin eps)) /\ ~ same_sign (xsub w (Fin eps)) (xsub v (Fin eps)).
  Proof.
    unfold same_sign, positive, negative. intros Hv Hw.
    assert (A : xltb (Fin 0) (xsub v (Fin eps)) = false).
    { destruct v; cbn in *; try reflexivity; try discriminate. apply Rltb_false. destruct (Rleb_spec r eps); [lra | discriminate]. }
    assert (B : xltb (xsub w (Fin eps)) (Fin 0) = false).
    { destruct w; cbn in *; try reflexivity; try discriminate. apply Rltb_false. destruct (Rleb_spec eps r); [lra | discriminate]. }
    rewrite A, B. split; intros [[? ?]|[? ?]]; discriminate.
  Qed.

  Lemma calibrate_returns fuel eps delta a b (discrete : bool) tol n : 0 <= eps -> 0 <= delta <= 1 -> a <= b ->
    (forall t, tol = Some t -> discrete = true \/ 0 < t) ->
    snd (acc_get_ledger fresh) = NoOp ->
    let t := tolerance discrete tol in
    let param x := if discrete then PyInt (Rround x) else PyFloat x in
    (forall x, a - t <= x <= b + t -> exists v, peps (param x) delta = Ok v) ->
    (exists v w, (peps (param a) delta = Ok v /\ peps (param b) delta = Ok w \/ peps (param b) delta = Ok v /\ peps (param a) delta = Ok w) /\
       xleb v (Fin eps) = true /\ xleb (Fin eps) w = true) ->
    (forall g, exists r c, brentq g a b t = BrentRoot r c /\ a <= r <= b) ->
    b - a <= t * 2 ^ n -> (n < fuel)%nat ->
    exists p, calibrate mc get_epsilon fresh make_event brentq fuel eps delta (Explicit a b) discrete tol = Ok p.
  Proof.
    intros He Hd Hab Ht L t param T E Br W Hf.
    assert (Pt : 0 < t).
    { unfold t, tolerance. destruct tol as [x|]; [destruct (Ht x eq_refl) as [->|X]; [pose proof (Rmax_r x 1); lra | destruct discrete; [pose proof (Rmax_r x 1); lra | exact X]]|].
      destruct discrete; lra. }
    unfold calibrate. rewrite Rltb_false, Rleb_true, Rleb_true by lra. cbn [andb negb].
    replace (match tol with Some t0 => if discrete then Ok (Rmax t0 1) else if Rleb t0 0 then Err ValueError else Ok t0 | None => Ok (if discrete then 1 else / 1000000) end) with (Ok t).
    2:{ unfold t, tolerance. destruct tol as [x|]; [|reflexivity]. destruct discrete; [reflexivity|]. destruct (Ht x eq_refl) as [X|X]; [discriminate|].
        rewrite Rleb_false by lra. reflexivity. }
    cbn [bind]. set (g := gap discrete eps delta).
    assert (Tg : forall x, a - t <= x <= b + t -> exists v, g x = Ok v).
    { intros x Hx. destruct (T x Hx) as [v Hv]. eexists. apply gap_total; [exact L | exact Hv]. }
    assert (Bi : exists x, bisect g fuel a b t = Ok x).
    { destruct E as (v & w & Ew & Lv & Lw). destruct (xsub_sides v w eps Lv Lw) as [S1 S2].
      destruct Ew as [[Ea Eb]|[Eb Ea]].
      - refine (bisect_total g (gap_not_nan discrete eps delta) t a b _ _ n fuel Pt Hab (gap_total discrete eps delta a _ L Ea) (gap_total discrete eps delta b _ L Eb) S1 (fun x Hx => Tg x _) W Hf). lra.
      - refine (bisect_total g (gap_not_nan discrete eps delta) t a b _ _ n fuel Pt Hab (gap_total discrete eps delta a _ L Ea) (gap_total discrete eps delta b _ L Eb) S2 (fun x Hx => Tg x _) W Hf). lra. }
    destruct Bi as [x Bi]. destruct (Br g) as (r & c & Er & Hr). fold t. rewrite Er. destruct c.
    - destruct (Tg r ltac:(lra)) as [v Gv]. rewrite Gv. cbn [bind]. destruct (xltb (Fin 0) v); [|eexists; reflexivity].
      destruct (Tg (r + t) ltac:(lra)) as [v1 Gv1]. rewrite Gv1. cbn [bind]. destruct (xltb v1 (Fin 0)); [eexists; reflexivity|].
      destruct (Tg (r - t) ltac:(lra)) as [v2 Gv2]. rewrite Gv2. cbn [bind]. destruct (xltb v2 (Fin 0)); [eexists; reflexivity|].
      cbn [bind]. rewrite Bi. eexists; reflexivity.
    - cbn [bind]. rewrite Bi. eexists; reflexivity.
  Qed.
End Cal.
