(** Specification vocabulary for the conversions between dictionaries and lists. *)
From Verif Require Import Base PyDict SpecPmf.
Open Scope R_scope.

(** A Python dictionary (no key twice) without negative values. *)
Definition good_dict (d : dict) : Prop := NoDup (map fst d) /\ forall kv, In kv d -> 0 <= snd kv.
Definition good_list (l : list R) : Prop := forall x, In x l -> 0 <= x.

(** The value a list with an offset gives to the key [k]; zero outside of the list. *)
Definition list_at (l : list R) (offset k : Z) : R :=
  if (k <? offset)%Z then 0 else nth (Z.to_nat (k - offset)) l 0.

Definition total_of (l : list R) : R := rsum (fun x => x) l.

(** The total value of the keys that satisfy [S]. *)
Definition weight (d : dict) (S : Z -> bool) : R :=
  rsum (fun kv => if S (fst kv) then snd kv else 0) d.
(** The same for the sum of a key of [d1] and a key of [d2], drawn independently. *)
Definition weight_of_sum (d1 d2 : dict) (S : Z -> bool) : R :=
  rsum (fun a => rsum (fun b => if S (fst a + fst b)%Z then snd a * snd b else 0) d2) d1.
(** The same for the sum of [n] keys of [d]. *)
Definition weight_of_sums (d : dict) (n : nat) (S : Z -> bool) : R :=
  prob_sum (map fst d) (dget0 d) n S.
