(** Specification vocabulary for the RDP formulas. *)
From Verif Require Import Base XReal TypesEvent.

(** Non-negative values, possibly infinite; vectors of them; the order of vectors. *)
Definition xpos (x : xr) : Prop := xleb (Fin 0) x = true.
Definition vec_le (s s' : list xr) : Prop := Forall2 (fun x y => xleb x y = true) s s'.
Definition vec_pos (s : list xr) : Prop := Forall xpos s.
(** RDP values the conversions are specified for: real numbers or infinity. *)
Definition finpos (r : xr) : Prop := match r with Fin _ | PInf => True | _ => False end.
(** Lists of orders: all real; all real or infinite. *)
Definition real_orders (orders : list xr) : Prop := forall a, In a orders -> exists x, a = Fin x.
Definition good_orders (orders : list xr) : Prop := forall a, In a orders -> exists x, a = Fin x \/ a = PInf.
(** An order the Renyi divergence is defined for. *)
Definition order_ok (a : xr) : Prop := match a with Fin a => 1 <= a | PInf => True | _ => False end.

(** The complete binary tree over [n] steps 0, ..., n-1: node [(l, j)] stands for the
    steps from [j 2^l] to [(j+1) 2^l - 1]; it is released once all of them are there. *)
Definition covers (node : nat * nat) (t : nat) : bool :=
  (snd node * 2 ^ fst node <=? t)%nat && (t <? (snd node + 1) * 2 ^ fst node)%nat.
Definition complete (n : nat) (node : nat * nat) : bool :=
  ((snd node + 1) * 2 ^ fst node <=? n)%nat.
Definition tree_nodes (n : nat) : list (nat * nat) :=
  filter (complete n) (list_prod (seq 0 (S n)) (seq 0 (S n))).
(** The number of released nodes a record taking part in step [t] contributes to. *)
Definition nodes_of_step (n t : nat) : nat := length (filter (fun v => covers v t) (tree_nodes n)).
(** The numbers of steps of all trees. *)
Definition all_counts (st : steps) : list Z := match st with OneTree z => [z] | Trees l => l end.

(** Iterated forward differences. *)
Fixpoint fdiff (f : nat -> R) (k x : nat) : R :=
  match k with O => f x | S k => fdiff f k (S x) - fdiff f k x end.

(** The mean of the truncated negative binomial distribution with success
    probability [g] and shape [s]. *)
Definition tnb_true_mean (g s : R) : R :=
  if Reqb s 0 then (1 / g - 1) / ln (1 / g) else s * (1 / g - 1) / (1 - Rpower g s).
