(** Exceptions as values. *)
From Verif Require Import Base.

Inductive exn :=
| TypeError | ValueError | UnsupportedEventError | ZeroDivisionError
| IndexError | KeyError | NotImplementedError | RuntimeError | OverflowError
| AssertionError | AttributeError | NoBracketIntervalFoundError | NonEmptyAccountantError | OutOfFuel.

Inductive res (A : Type) := Ok (a : A) | Err (e : exn).
Arguments Ok {A}. Arguments Err {A}.

Definition bind {A B} (x : res A) (f : A -> res B) : res B :=
  match x with Ok a => f a | Err e => Err e end.
Notation "'let?' x ':=' a 'in' b" := (bind a (fun x => b))
  (at level 200, x pattern, a at level 100, b at level 200).

Lemma bind_Ok {A B} (x : res A) (f : A -> res B) b :
  bind x f = Ok b -> exists a, x = Ok a /\ f a = Ok b.
Proof. destruct x; simpl; [eauto | discriminate]. Qed.
