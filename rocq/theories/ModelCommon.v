(** Model of python/dp_accounting/dp_accounting/pld/common.py 126-321:
    conversions and convolutions.  In comments, [common] is that file. *)
From Verif Require Import Base XReal Exn PyDict.

(** common 126-143 dictionary_to_list ([min] of an empty dict raises ValueError). *)
Definition dictionary_to_list (d : dict) : res (Z * list R) :=
  match map fst d with
  | [] => Err ValueError
  | k :: ks =>
      let offset := zmin_list k ks in
      let max_val := zmax_list k ks in
      Ok (offset, map (dget0 d) (zrange offset (Z.to_nat (max_val + 1 - offset))))
  end.

(** common 164-168 (and 172-176 on the reversed list): number of leading
    elements skipped while the running sum is at most [thr]. *)
Fixpoint skip_prefix (thr s : R) (l : list R) : nat :=
  match l with
  | [] => O
  | x :: l => if Rltb thr (s + x) then O else S (skip_prefix thr (s + x) l)
  end.

(** common 146-182 list_to_dictionary *)
Definition list_to_dictionary (l : list R) (offset : Z) (tail : R) : dict :=
  let lower := skip_prefix (tail / 2) 0 l in
  let upper := (Z.of_nat (length l) - 1 - Z.of_nat (skip_prefix (tail / 2) 0 (rev l)))%Z in
  fold_left
    (fun d i => let x := nth (Z.to_nat i) l 0 in
                if Rltb 0 x then dset d (i + offset)%Z x else d)
    (zrange (Z.of_nat lower) (Z.to_nat (upper + 1 - Z.of_nat lower))) [].

(** [scipy.signal.fftconvolve(l1, l2)] in exact arithmetic: the linear
    convolution, entry k is the sum of [l1[i] * l2[k-i]]; empty if an argument is. *)
Definition convolve (l1 l2 : list R) : list R :=
  match l1, l2 with
  | [], _ | _, [] => []
  | _, _ =>
      map (fun k => rsum (fun i => nth i l1 0 * nth (k - i) l2 0) (seq 0 (S k)))
          (seq 0 (length l1 + length l2 - 1))
  end.

(** common 185-211 convolve_dictionary *)
Definition convolve_dictionary (d1 d2 : dict) (tail : R) : res dict :=
  let? (min1, l1) := dictionary_to_list d1 in
  let? (min2, l2) := dictionary_to_list d2 in
  Ok (list_to_dictionary (convolve l1 l2) (min1 + min2) tail).

(** common 241-242: default orders -20..-1 and 1..20 divided by the length. *)
Definition default_orders (len : nat) : list R :=
  map (fun z => IZR z / INR len) (zrange (-20) 20 ++ zrange 1 20).

(** common 245-248: moment generating function of the list at [order]. *)
Definition mgf (l : list R) (order : R) : R :=
  rsum (fun i => nth i l 0 * exp (INR i * order)) (seq 0 (length l)).

(** common 250-258: one round of the loop over the orders.  If the moment
    generating function is zero its log is -inf and [math.ceil] raises.  A zero
    order updates nothing.  (Lists with negative entries, whose logsumexp may be
    NaN, raise here as well.) *)
Definition chernoff_step (l : list R) (num_times : Z) (tail : R)
    (b : res (Z * Z)) (order : R) : res (Z * Z) :=
  let? (lower, upper) := b in
  if Rleb (mgf l order) 0 then Err OverflowError else
  let bound := (IZR num_times * ln (mgf l order) + ln (2 / tail)) / order in
  let upper := if Rltb 0 order then Z.min upper (Rceil bound) else upper in
  let lower := if Rltb order 0 then Z.max lower (Rfloor bound) else lower in
  Ok (lower, upper).

(** common 214-260 compute_self_convolve_bounds.  [math.log(2 / tail)] of a
    negative tail raises ValueError. *)
Definition compute_self_convolve_bounds (l : list R) (num_times : Z) (tail : R)
    (orders : option (list R)) : res (Z * Z) :=
  let upper := ((Z.of_nat (length l) - 1) * num_times)%Z in
  if Reqb tail 0 then Ok (0, upper)%Z else
  if Rltb tail 0 then Err ValueError else
  let orders := match orders with Some o => o | None => default_orders (length l) end in
  fold_left (chernoff_step l num_times tail) orders (Ok (0, upper)%Z).

(** n-fold linear convolution of a list with itself (the polynomial power that
    [fft(l)**n] computes before wrapping around). *)
Fixpoint conv_pow (l : list R) (n : nat) : list R :=
  match n with O => [1] | S n => convolve l (conv_pow l n) end.

(** [np.real(fft.ifft(fft.fft(l, L)**n))] in exact arithmetic: the circular
    n-fold convolution, entry k collects all entries of the linear one whose
    index is k modulo L (common 285-287). *)
Definition circular (full : list R) (L : nat) : list R :=
  map (fun k => rsum (fun m => if (m mod L =? k)%nat then nth m full 0 else 0)
                     (seq 0 (length full)))
      (seq 0 L).

(** [np.roll(a, -s)]: entry i of the result is entry (i + s) mod len (common 291-293). *)
Definition roll_back (a : list R) (s : Z) : list R :=
  map (fun i => nth (Z.to_nat ((Z.of_nat i + s) mod Z.of_nat (length a))) a 0)
      (seq 0 (length a)).

(** common 263-295 self_convolve; [fast_len] is [scipy.fft.next_fast_len], an
    external function.  An empty input raises inside the FFT. *)
Definition self_convolve (fast_len : nat -> nat) (l : list R) (num_times : Z) (tail : R)
    : res (Z * list R) :=
  match l with
  | [] => Err ValueError
  | _ =>
      let? (lower, upper) := compute_self_convolve_bounds l num_times tail None in
      let output_len := (upper - lower + 1)%Z in
      let L := fast_len (Z.to_nat (Z.max output_len (Z.of_nat (length l)))) in
      Ok (lower,
          slice_to (roll_back (circular (conv_pow l (Z.to_nat num_times)) L) lower)
                   output_len)
  end.

(** common 298-321 self_convolve_dictionary *)
Definition self_convolve_dictionary (fast_len : nat -> nat) (d : dict) (num_times : Z)
    (tail : R) : res dict :=
  let? (min_val, l) := dictionary_to_list d in
  let? (min_conv, out) := self_convolve fast_len l num_times tail in
  Ok (list_to_dictionary out (min_val * num_times + min_conv) 0).
