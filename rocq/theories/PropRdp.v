(** Properties of the RDP formulas and of the conversion to (epsilon, delta). *)
From Verif Require Import Base XReal Exn SpecDP SpecRenyi SpecRdp SpecMake TypesEvent TypesRelation ModelMake ModelRdp ModelLog
  ProofConv ProofMono ProofRRRdp ProofPoisson ProofTree ProofTaylor ProofGamma ProofLog ProofRdpMath ProofRdpEx ProofMoreEx.

(** C36: a finite reported epsilon is a guarantee for every pair of distributions that
    satisfies the RDP bounds, in both directions. *)
Theorem C36_epsilon_sound : forall orders rdp delta E e o,
  rdp_curve orders rdp E -> orders <> [] -> real_orders orders ->
  compute_epsilon orders rdp delta = Ok (Fin e, o) -> dp_both E e delta.
Proof. exact epsilon_sound. Qed.
Print Assumptions C36_epsilon_sound.

Theorem C36_epsilon_range : forall orders rdp delta e o,
  real_orders orders -> (forall a r, In (a, r) (combine orders rdp) -> finpos r) ->
  compute_epsilon orders rdp delta = Ok (e, o) -> e = PInf \/ exists x, e = Fin x /\ 0 <= x.
Proof. exact epsilon_range. Qed.
Print Assumptions C36_epsilon_range.

Theorem C36_total : forall orders rdp delta,
  0 <= delta -> orders <> [] -> length orders = length rdp ->
  (forall a, In a orders -> xltb a (Fin 1) = false) ->
  exists e o, compute_epsilon orders rdp delta = Ok (e, o).
Proof. exact epsilon_total. Qed.
Print Assumptions C36_total.

(** C36: it is the best of the guarantees the single orders give. *)
Theorem C36_best_order : forall orders rdp delta e o a r e' o',
  real_orders orders -> (forall a r, In (a, r) (combine orders rdp) -> finpos r) ->
  0 < delta -> compute_epsilon orders rdp delta = Ok (e, o) ->
  In (a, r) (combine orders rdp) -> compute_epsilon [a] [r] delta = Ok (e', o') ->
  xleb e e' = true.
Proof. exact epsilon_best. Qed.
Print Assumptions C36_best_order.

Example C36_example : rdp_curve [Fin 2] [Fin 1] coin /\
  exists e, compute_epsilon [Fin 2] [Fin 1] (1/10) = Ok (Fin e, Fin 2) /\ 1 < e.
Proof. exact coin_eps. Qed.

(** C37: the reported delta is a number in [0, 1] and a guarantee; infinite orders are
    allowed. *)
Theorem C37_delta_sound : forall orders rdp eps E d o,
  rdp_curve orders rdp E -> good_orders orders ->
  compute_delta orders rdp (Fin eps) = Ok (d, o) ->
  exists x, d = Fin x /\ 0 <= x <= 1 /\ dp_both E eps x.
Proof. exact delta_sound. Qed.
Print Assumptions C37_delta_sound.

Theorem C37_total : forall orders rdp eps,
  0 <= eps -> orders <> [] -> length orders = length rdp ->
  (forall a, In a orders -> xltb a (Fin 1) = false) ->
  exists d o, compute_delta orders rdp (Fin eps) = Ok (d, o).
Proof. exact delta_total. Qed.
Print Assumptions C37_total.

Theorem C37_best_order : forall orders rdp eps d o a r d' o',
  good_orders orders -> (forall a r, In (a, r) (combine orders rdp) -> finpos r) ->
  compute_delta orders rdp (Fin eps) = Ok (d, o) ->
  In (a, r) (combine orders rdp) -> compute_delta [a] [r] (Fin eps) = Ok (d', o') ->
  xleb d d' = true.
Proof. exact delta_best. Qed.
Print Assumptions C37_best_order.

Example C37_example : rdp_curve [Fin 2; PInf] [Fin 1; Fin 1] coin.
Proof. exact coin_curve. Qed.

(** C38: more RDP never lowers the reported values; a larger delta never raises the
    reported epsilon, a larger epsilon never raises the reported delta. *)
Theorem C38_epsilon_mono : forall orders s s' delta e e' o o',
  real_orders orders -> vec_pos s -> vec_le s s' ->
  compute_epsilon orders s delta = Ok (e, o) -> compute_epsilon orders s' delta = Ok (e', o') ->
  xleb e e' = true.
Proof. exact epsilon_mono. Qed.
Print Assumptions C38_epsilon_mono.

Theorem C38_epsilon_mono_delta : forall orders s delta delta' e e' o o',
  real_orders orders -> vec_pos s -> delta <= delta' ->
  compute_epsilon orders s delta = Ok (e, o) -> compute_epsilon orders s delta' = Ok (e', o') ->
  xleb e' e = true.
Proof. exact epsilon_mono_delta. Qed.
Print Assumptions C38_epsilon_mono_delta.

Theorem C38_delta_mono : forall orders s s' eps eps' d d' o o',
  good_orders orders -> vec_pos s -> vec_le s s' -> eps <= eps' ->
  compute_delta orders s (Fin eps') = Ok (d, o) -> compute_delta orders s' (Fin eps) = Ok (d', o') ->
  xleb d d' = true.
Proof. exact delta_mono. Qed.
Print Assumptions C38_delta_mono.

Example C38_example : real_orders [Fin 2] /\ vec_pos [Fin 1] /\ vec_le [Fin 1] [Fin 2] /\
  exists e1 e2 e3, compute_epsilon [Fin 2] [Fin 1] (1/10) = Ok (Fin e1, Fin 2) /\
    compute_epsilon [Fin 2] [Fin 2] (1/10) = Ok (Fin e2, Fin 2) /\
    compute_epsilon [Fin 2] [Fin 1] (1/5) = Ok (Fin e3, Fin 2) /\ e3 < e1 < e2.
Proof. exact mono_example. Qed.

(** C40: the charge for randomised response at each order is the least bound on the
    Renyi divergences of every neighbouring pair. *)
Theorem C40_exact : forall p k a rel v E,
  rdp_order a -> rdp_randomized_response (Fin p) k [a] rel = Ok v ->
  rr_pair rel p k E -> exists r, v = [r] /\ least_bound E a r.
Proof. exact rr_rdp_exact. Qed.
Print Assumptions C40_exact.

Theorem C40_total : forall p k orders rel,
  0 <= p <= 1 -> (1 <= k)%Z -> (forall a, In a orders -> rdp_order a) ->
  exists v, rdp_randomized_response (Fin p) k orders rel = Ok v /\ length v = length orders /\
    forall i a, nth_error orders i = Some a ->
      exists r, nth_error v i = Some r /\ rdp_randomized_response (Fin p) k [a] rel = Ok [r].
Proof. exact rr_rdp_total. Qed.
Print Assumptions C40_total.

Example C40_example : exists v, rdp_randomized_response (Fin (1/2)) 3 [Fin 2; PInf] REPLACE_ONE = Ok v /\
  rr_pair REPLACE_ONE (1/2) 3 (rr_exper (1/2) 3 0 1).
Proof. exact rr_ex. Qed.

(** C41: the exact value at integer orders. *)
Theorem C41_binomial_sum : forall frac q sigma a,
  0 <= q <= 1 -> 0 < sigma -> (2 <= a)%nat ->
  rdp_poisson_gaussian frac (Fin q) (SNum (Fin sigma)) [Fin (INR a)] =
  Ok [Fin (ln (rsum (fun i => C a i * q ^ i * (1 - q) ^ (a - i)
                              * exp ((INR i * INR i - INR i) / (2 * (sigma * sigma))))
                    (seq 0 (S a))) / (INR a - 1))].
Proof. exact poisson_value. Qed.
Print Assumptions C41_binomial_sum.

Theorem C41_bounds : forall frac q q' sigma a r r',
  0 <= q -> q <= q' -> q' <= 1 -> 0 < sigma -> (2 <= a)%nat ->
  rdp_poisson_gaussian frac (Fin q) (SNum (Fin sigma)) [Fin (INR a)] = Ok [Fin r] ->
  rdp_poisson_gaussian frac (Fin q') (SNum (Fin sigma)) [Fin (INR a)] = Ok [Fin r'] ->
  0 <= r /\ r <= r' /\ r' <= INR a / (2 * (sigma * sigma)).
Proof. exact poisson_bounds. Qed.
Print Assumptions C41_bounds.

(** C41: the value bounds the Renyi divergence of the subsampled mechanism for every
    (finite) mechanism with the RDP curve of the Gaussian one. *)
Theorem C41_subsampled_mechanism : forall frac q sigma a r E,
  0 < q <= 1 -> 0 < sigma -> (2 <= a)%nat -> valid E ->
  (forall i, (2 <= i <= a)%nat -> renyi_bounded E (Fin (INR i)) (Fin (INR i / (2 * (sigma * sigma))))) ->
  rdp_poisson_gaussian frac (Fin q) (SNum (Fin sigma)) [Fin (INR a)] = Ok [r] ->
  renyi_bounded (poisson_mix q E) (Fin (INR a)) r.
Proof. exact mix_sound. Qed.
Print Assumptions C41_subsampled_mechanism.

Example C41_example : valid coin /\
  forall i, (2 <= i)%nat -> renyi_bounded coin (Fin (INR i)) (Fin (INR i / (2 * (1 * 1)))).
Proof. exact (conj coin_valid coin_gauss). Qed.

(** C42: the charge is that of [d] Gaussian releases, where [d] is the largest number of
    complete tree nodes that contain one step. *)
Theorem C42_depth : forall sigma st orders v,
  0 < sigma -> rdp_tree (Fin sigma) st orders = Ok v ->
  exists d, v = map (fun a => xdiv (xmul a (Fin (INR d))) (Fin (2 * (sigma * sigma)))) orders /\
    (forall z, In z (all_counts st) -> (0 <= z)%Z) /\
    (forall n t, In (Z.of_nat n) (all_counts st) -> (t < n)%nat -> (nodes_of_step n t <= d)%nat) /\
    ((exists n t, In (Z.of_nat n) (all_counts st) /\ (t < n)%nat /\ nodes_of_step n t = d) \/
     (d = 0%nat /\ forall z, In z (all_counts st) -> z = 0%Z)).
Proof. exact tree_charge. Qed.
Print Assumptions C42_depth.

(** C42: which arguments are refused. *)
Theorem C42_refuses : forall sigma st orders,
  (sigma < 0 -> rdp_tree (Fin sigma) st orders = Err ValueError) /\
  (sigma = 0 -> rdp_tree (Fin sigma) st orders = Ok (map (fun _ => PInf) orders)) /\
  (0 < sigma -> st = OneTree 0 \/ all_counts st = [] \/ Exists (fun z => (z < 0)%Z) (all_counts st) ->
   rdp_tree (Fin sigma) st orders = Err ValueError) /\
  (0 < sigma -> st <> OneTree 0 -> all_counts st <> [] -> Forall (fun z => (0 <= z)%Z) (all_counts st) ->
   exists v, rdp_tree (Fin sigma) st orders = Ok v).
Proof. exact tree_checks. Qed.
Print Assumptions C42_refuses.

Example C42_example : exists v, rdp_tree (Fin 1) (Trees [5; 8; 3]%Z) [Fin 2] = Ok v /\
  nodes_of_step 8 0 = 4%nat /\ nodes_of_step 5 4 = 1%nat.
Proof. exact tree_ex. Qed.

(** C43: logarithms are values [Some x], or [None] for -inf; [lexp] is exp. *)
Theorem C43_log_add : forall x y, lexp (log_add x y) = lexp x + lexp y.
Proof. exact log_add_exp. Qed.
Print Assumptions C43_log_add.

Theorem C43_log_sub_sign : forall x y,
  (if fst (log_sub_sign x y) then 1 else -1) * lexp (snd (log_sub_sign x y)) = lexp x - lexp y.
Proof. exact log_sub_sign_exp. Qed.
Print Assumptions C43_log_sub_sign.

Theorem C43_common_log_add_partial : forall x y, c_log_add (Fin x) (Fin y) = Fin (ln (exp x + exp y)).
Proof. exact c_log_add_fin. Qed.
Print Assumptions C43_common_log_add_partial.

Theorem C43_common_log_add_minus_inf : forall x,
  c_log_add MInf (Fin x) = Fin x /\ c_log_add (Fin x) MInf = Fin x.
Proof. exact c_log_add_minf. Qed.
Print Assumptions C43_common_log_add_minus_inf.

(** C43, finding: the helper of the PLD library returns NaN instead of -inf for two
    arguments -inf. *)
Theorem C43_common_log_add_refuted : c_log_add MInf MInf = NaN.
Proof. exact c_log_add_both. Qed.
Print Assumptions C43_common_log_add_refuted.

Theorem C43_common_log_sub : forall x y, c_log_sub (Fin x) (Fin y) =
  if Rltb y x then Ok (Fin (ln (exp x - exp y))) else Err ValueError.
Proof. exact c_log_sub_fin. Qed.
Print Assumptions C43_common_log_sub.

Theorem C43_common_log_sub_infinite : forall x,
  c_log_sub (Fin x) MInf = Ok (Fin x) /\ c_log_sub PInf (Fin x) = Ok PInf /\
  c_log_sub MInf (Fin x) = Err ValueError /\ c_log_sub (Fin x) PInf = Err ValueError /\
  c_log_sub MInf MInf = Err ValueError /\ c_log_sub PInf PInf = Err ValueError.
Proof. exact c_log_sub_minf. Qed.
Print Assumptions C43_common_log_sub_infinite.

Theorem C43_log_abc : forall a b c, 0 < a * exp b + c ->
  log_abc a (Fin b) c = Ok (Fin (ln (a * exp b + c))).
Proof. exact log_abc_pos. Qed.
Print Assumptions C43_log_abc.

Example C43_log_abc_example : 0 < 2 * exp 1 + -1.
Proof. exact abc_example. Qed.

Theorem C43_log_abc_undefined : forall a b c, a * exp b + c <= 0 ->
  log_abc a (Fin b) c =
  if (Reqb a 0 || (Rltb 0 a && Reqb b 0))%bool
  then Ok (if Reqb (a * exp b + c) 0 then MInf else NaN) else Err ValueError.
Proof. exact log_abc_neg. Qed.
Print Assumptions C43_log_abc_undefined.

Theorem C43_log_abc_plus_inf : forall a c, log_abc a PInf c =
  if Rltb 0 a then Ok PInf else if Reqb a 0 then Ok (np_log (Fin c)) else Err ValueError.
Proof. exact log_abc_pinf. Qed.
Print Assumptions C43_log_abc_plus_inf.

Theorem C43_log_abc_minus_inf : forall a c, a <> 0 -> log_abc a MInf c =
  if Rltb 0 c then Ok (Fin (ln c)) else if (Reqb c 0 && Rltb 0 a)%bool then Ok MInf else Err ValueError.
Proof. exact log_abc_minf. Qed.
Print Assumptions C43_log_abc_minus_inf.

(** C44: the k-th entry is the (k+1)-st forward difference at 0 of 1, e^fn(0), e^fn(1), ... *)
Theorem C44_forward_differences : forall fn n k, (k < n + 2)%nat ->
  length (get_forward_diffs fn n) = (n + 2)%nat /\
  let entry := nth k (get_forward_diffs fn n) (false, Some 0) in
  (if fst entry then 1 else -1) * lexp (snd entry) =
  fdiff (fun i => match i with O => 1 | S i => exp (fn i) end) (k + 1) 0.
Proof. exact forward_diffs_spec. Qed.
Print Assumptions C44_forward_differences.

(** For 1, 2, 4, 8, ... every one of them is 1. *)
Example C44_example : let fn := fun i => INR (S i) * ln 2 in
  forall k, (k < 3)%nat -> fdiff (fun i => match i with O => 1 | S i => exp (fn i) end) (k + 1) 0 = 1.
Proof. exact diffs_example. Qed.

(** C45, finding: with an infinite order the reported epsilon may be no guarantee. *)
Theorem C45_infinite_order_refuted :
  rdp_curve [Fin 2; PInf] [Fin 1; Fin 1] coin /\
  compute_epsilon [Fin 2; PInf] [Fin 1; Fin 1] (1/10) = Ok (Fin 0, PInf) /\
  ~ dp_both coin 0 (1/10).
Proof. exact (conj coin_curve (conj coin_epsilon coin_not_dp)). Qed.
Print Assumptions C45_infinite_order_refuted.

(** C45: the reported delta remains a guarantee.  Missing: the same for epsilon, which
    is false by the theorem above. *)
Theorem C45_delta_partial : forall orders rdp eps E d o,
  rdp_curve (PInf :: orders) rdp E -> good_orders orders ->
  compute_delta (PInf :: orders) rdp (Fin eps) = Ok (d, o) ->
  exists x, d = Fin x /\ 0 <= x <= 1 /\ dp_both E eps x.
Proof. exact delta_inf_order. Qed.
Print Assumptions C45_delta_partial.

Example C45_example : rdp_curve [PInf; Fin 2] [Fin 1; Fin 1] coin /\ good_orders [Fin 2] /\
  exists d o, compute_delta [PInf; Fin 2] [Fin 1; Fin 1] (Fin 2) = Ok (d, o).
Proof. exact inf_delta_example. Qed.

(** C46: the mean the code computes is the true mean up to a relative error of 5e-90. *)
Theorem C46_mean_accurate : forall g s m, 0 <= s -> 0 < g < 1 -> tnb_mean g s = Ok m ->
  exists d, tnb_true_mean g s = m * (1 + d) /\ Rabs d <= 5 / 10 ^ 90 /\ 0 < m.
Proof. exact tnb_rel. Qed.
Print Assumptions C46_mean_accurate.

(** C46: the returned gamma has at least the requested mean, and a gamma larger by the
    tolerance has (almost) at most it. *)
Theorem C46_conservative : forall fuel shape mean tol g,
  0 <= tol -> gamma_tnb fuel shape (Fin mean) tol = Ok g ->
  0 < g <= 1 /\ (exists m, tnb_mean g shape = Ok m /\ mean <= m) /\
  exists g', g <= g' <= g * (1 + tol) /\
    (g' = 1 \/ g' < 1 /\ tnb_true_mean g' shape <= mean * (1 + 5 / 10 ^ 90)).
Proof. exact gamma_sound. Qed.
Print Assumptions C46_conservative.

Theorem C46_terminates : forall shape mean tol, 0 <= shape -> 1 <= mean -> 0 < tol ->
  exists fuel g, gamma_tnb fuel shape (Fin mean) tol = Ok g.
Proof. exact gamma_terminates. Qed.
Print Assumptions C46_terminates.

(** The geometric distribution, and a search. *)
Example C46_example : tnb_mean (1/2) 1 = Ok (1 / (1/2)) /\ tnb_true_mean (1/2) 1 = 2 /\
  exists fuel g, gamma_tnb fuel (1/2) (Fin 3) (1/1000) = Ok g.
Proof. exact gamma_example. Qed.
