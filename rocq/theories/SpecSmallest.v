(** Specification vocabulary for compositions of (eps, delta)-DP computations. *)
From Verif Require Import Base XReal SpecDP.

(** The computations that are (eps, delta)-differentially private on the two inputs. *)
Definition private (eps delta : R) (E : exper) : Prop := valid E /\ dp_both E eps delta.

(** An (eps, delta)-DP computation that leaks as much as possible: with probability delta it
    reveals the input (outcomes 0 and 3), otherwise it answers truthfully with odds
    e^eps : 1 (outcomes 1 and 2). *)
Definition leaky (eps delta : R) : exper :=
  {| outcome := nat; outs := [0; 1; 2; 3]%nat;
     prP := fun o => match o with
                     | 0%nat => delta
                     | 1%nat => (1 - delta) * (exp eps / (1 + exp eps))
                     | 2%nat => (1 - delta) * (1 / (1 + exp eps))
                     | _ => 0
                     end;
     prQ := fun o => match o with
                     | 0%nat => 0
                     | 1%nat => (1 - delta) * (1 / (1 + exp eps))
                     | 2%nat => (1 - delta) * (exp eps / (1 + exp eps))
                     | _ => delta
                     end |}.

(** [n] independent runs of the same computation. *)
Fixpoint repeated (E : exper) (n : nat) : exper :=
  match n with O => silent | S n => seq_exper (repeated E n) (fun _ => E) end.
