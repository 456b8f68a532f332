(** Specification vocabulary for the accuracy of composed privacy loss distributions. *)
From Verif Require Import Base XReal SpecDP ModelPmf ModelPld SpecPmf SpecPld.

(** [D] is close to the computation [E] from above: at every eps, in both directions, its
    delta exceeds the divergence of [E], [shift] to the left, by at most [slack].  With
    [shift = slack = 0] it is a lower bound. *)
Definition pld_near (shift slack : R) (D : pld) (E : exper) : Prop :=
  valid E /\
  (forall eps, pmf_delta (pmf_remove D) (Fin eps) <= hockey_stick E (eps - shift) + slack) /\
  (forall eps, pmf_delta (pmf_add D) (Fin eps) <= hockey_stick (swap E) (eps - shift) + slack).

(** A well-formed pmf whose total mass is at most one. *)
Definition subproper (p : pmf) : Prop :=
  wf p /\ forall ks, covers ks p -> rsum (mass p) ks + infinity_mass p <= 1.

(** A privacy loss distribution of this kind, both of whose pmfs round up ([pess]) or down. *)
Definition subproper_pld (pess : bool) (D : pld) : Prop :=
  wf_pld D /\ subproper (pmf_remove D) /\ subproper (pmf_add D) /\
  pessimistic_estimate (pmf_remove D) = pess /\ pessimistic_estimate (pmf_add D) = pess.

(** One composition: the distribution, its truncation, and how close it is. *)
Record near_step : Type := mkNear { step_pld : pld; step_tail : R; step_shift : R; step_slack : R }.
Definition step_ok (pess : bool) (s : near_step) : Prop :=
  subproper_pld pess (step_pld s) /\ 0 <= step_tail s /\ 0 <= step_shift s /\ 0 <= step_slack s.
Definition step_class (s : near_step) : exper -> Prop := pld_near (step_shift s) (step_slack s) (step_pld s).

(** The worst mechanism with the guarantee (eps, delta): with probability [delta] it shows the
    input (outcomes 0 and 3), otherwise it answers by randomised response (1 and 2). *)
Definition worst_mechanism (eps delta : R) : exper :=
  let high := (1 - delta) * (exp eps / (1 + exp eps)) in
  let low := (1 - delta) * (1 / (1 + exp eps)) in
  {| outcome := nat; outs := [0%nat; 1%nat; 2%nat; 3%nat];
     prP := fun o => match o with O => delta | 1%nat => high | 2%nat => low | _ => 0 end;
     prQ := fun o => match o with O => 0 | 1%nat => low | 2%nat => high | _ => delta end |}.
