(** Properties of the conversions and convolutions of dictionaries (C47, C57). *)
From Verif Require Import Base XReal Exn PyDict ModelCommon SpecPmf SpecDict ProofConvert.

(** C47, dictionary_to_list: the list, read from the returned offset, gives every key the
    value of the dictionary (zero for a missing key), and it starts at the smallest and ends
    at the largest key. *)
Theorem C47_to_list : forall d, NoDup (map fst d) -> d <> [] ->
  exists lo l, dictionary_to_list d = Ok (lo, l) /\
    (forall k, list_at l lo k = dget0 d k) /\ In lo (map fst d) /\ In (lo + Z.of_nat (length l) - 1)%Z (map fst d).
Proof. exact to_list_ok. Qed.
Print Assumptions C47_to_list.

(** C47: converting to a list and back gives every key the same value. *)
Theorem C47_round_trip : forall d lo l k, good_dict d -> dictionary_to_list d = Ok (lo, l) ->
  dget0 (list_to_dictionary l lo 0) k = dget0 d k.
Proof. exact round_trip. Qed.
Print Assumptions C47_round_trip.

Example C47_round_trip_example :
  good_dict two_keys /\ dictionary_to_list two_keys = Ok ((-2)%Z, [3/4; 0; 0; 0; 0; 1/4]).
Proof. exact (conj two_keys_good two_keys_list). Qed.

(** C47: converting to a dictionary and back gives the same list up to zeros at the ends. *)
Theorem C47_round_trip_list : forall l off D lo l', good_list l -> list_to_dictionary l off 0 = D ->
  dictionary_to_list D = Ok (lo, l') -> forall k, list_at l' lo k = list_at l off k.
Proof. exact back_trip. Qed.
Print Assumptions C47_round_trip_list.

(** C47, list_to_dictionary: the result has exactly the positive entries of the list between
    two positions, at their keys; the entries before and after have mass at most half of the
    given tail mass each, and as many as possible are removed. *)
Theorem C47_truncation : forall l off tail, good_list l -> 0 <= tail ->
  let D := list_to_dictionary l off tail in
  exists a b, (a <= length l)%nat /\ (b <= length l)%nat /\
    good_dict D /\ (forall k, In k (map fst D) <-> 0 < dget0 D k) /\
    (forall k, dget0 D k = if (off + Z.of_nat a <=? k)%Z && (k <? off + Z.of_nat b)%Z then list_at l off k else 0) /\
    total_of (firstn a l) <= tail / 2 /\ total_of (skipn b l) <= tail / 2 /\
    ((a < length l)%nat -> tail / 2 < total_of (firstn (S a) l)) /\ ((0 < b)%nat -> tail / 2 < total_of (skipn (b - 1) l)).
Proof. exact to_dict_ok. Qed.
Print Assumptions C47_truncation.

Example C47_truncation_example :
  good_list [1/8; 1/4; 1/2; 1/16] /\ list_to_dictionary [1/8; 1/4; 1/2; 1/16] (-1) (1/4) = [(0%Z, 1/4); (1%Z, 1/2)].
Proof. exact truncates_example. Qed.

(** C47 fails for lists with negative entries (as an FFT can produce by rounding): although
    its documentation promises every positive entry, list_to_dictionary drops positive entries
    as long as the sum from the end is not positive, even without truncation. *)
Theorem C47_negative_refuted :
  ~ (forall l off k, 0 < list_at l off k -> dget0 (list_to_dictionary l off 0) k = list_at l off k).
Proof. exact negative_refuted. Qed.
Print Assumptions C47_negative_refuted.

(** C57, convolve_dictionary: for every set of keys, the weight the result gives to it is the
    weight of the sum of two independent draws, less at most the truncated mass. *)
Theorem C57_convolve : forall d1 d2 tail, good_dict d1 -> good_dict d2 -> d1 <> [] -> d2 <> [] -> 0 <= tail ->
  exists d, convolve_dictionary d1 d2 tail = Ok d /\ good_dict d /\
    forall S, weight d S <= weight_of_sum d1 d2 S <= weight d S + tail.
Proof. exact convolve_dictionary_ok. Qed.
Print Assumptions C57_convolve.

(** C57, self_convolve_dictionary: the weight of the sum of n independent draws, up to the
    tail mass.  [fast_len] is scipy's next_fast_len. *)
Theorem C57_self_convolve : forall fast_len d n tail D,
  (forall k, (k <= fast_len k)%nat) -> good_dict d -> (0 <= n)%Z -> 0 <= tail ->
  self_convolve_dictionary fast_len d n tail = Ok D ->
  good_dict D /\ forall S, weight D S <= weight_of_sums d (Z.to_nat n) S + tail /\ weight_of_sums d (Z.to_nat n) S <= weight D S + tail.
Proof. exact self_convolve_dictionary_ok. Qed.
Print Assumptions C57_self_convolve.

Theorem C57_self_convolve_returns : forall fast_len d n tail, good_dict d -> 0 <= tail -> 0 < weight d (fun _ => true) ->
  exists D, self_convolve_dictionary fast_len d n tail = Ok D.
Proof. exact self_convolve_dictionary_total. Qed.
Print Assumptions C57_self_convolve_returns.

Example C57_example : good_dict two_keys /\ 0 < weight two_keys (fun _ => true).
Proof. exact (conj two_keys_good two_keys_weight). Qed.
