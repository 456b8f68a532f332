(** Python dictionaries with integer keys and float values (insertion ordered)
    and Python list helpers. *)
From Verif Require Import Base Exn.
Open Scope R_scope.

Definition dict := list (Z * R).

Fixpoint dget (d : dict) (k : Z) : option R :=
  match d with
  | [] => None
  | (k', v) :: d => if (k' =? k)%Z then Some v else dget d k
  end.
(** [d.get(k, 0)] *)
Definition dget0 (d : dict) (k : Z) : R := match dget d k with Some v => v | None => 0 end.

(** [d[k] = v]: overwrite in place, or append a new key. *)
Fixpoint dset (d : dict) (k : Z) (v : R) : dict :=
  match d with
  | [] => [(k, v)]
  | (k', v') :: d => if (k' =? k)%Z then (k', v) :: d else (k', v') :: dset d k v
  end.

(** [d[k] = d.get(k, 0) + v] *)
Definition dadd (d : dict) (k : Z) (v : R) : dict := dset d k (dget0 d k + v).

(** [dict(pairs)]: later pairs overwrite earlier ones. *)
Definition dict_of (l : list (Z * R)) : dict :=
  fold_left (fun d kv => dset d (fst kv) (snd kv)) l [].

(** [sorted(keys)] *)
Fixpoint zinsert (k : Z) (l : list Z) : list Z :=
  match l with
  | [] => [k]
  | x :: l => if (k <=? x)%Z then k :: x :: l else x :: zinsert k l
  end.
Fixpoint zsort (l : list Z) : list Z :=
  match l with [] => [] | k :: l => zinsert k (zsort l) end.

(** [range(a, a + n)] *)
Fixpoint zrange (a : Z) (n : nat) : list Z :=
  match n with O => [] | S n => a :: zrange (a + 1) n end.

(** Python slice [l[:n]] with a possibly negative bound. *)
Definition slice_to {A} (l : list A) (n : Z) : list A :=
  if (0 <=? n)%Z then firstn (Z.to_nat n) l
  else firstn (Z.to_nat (Z.of_nat (length l) + n)) l.

(** minimum and maximum of the keys ([min(dict)], [max(dict)]) *)
Fixpoint zmin_list (x : Z) (l : list Z) : Z :=
  match l with [] => x | y :: l => zmin_list (Z.min x y) l end.
Fixpoint zmax_list (x : Z) (l : list Z) : Z :=
  match l with [] => x | y :: l => zmax_list (Z.max x y) l end.
