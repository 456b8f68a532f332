(** Model of the series for fractional orders of the Poisson-sampled Gaussian mechanism in
    python/dp_accounting/dp_accounting/rdp/rdp_privacy_accountant.py (cited as "rdp"). *)
From Verif Require Import Base XReal ModelMake ModelRdp.
Local Open Scope R_scope.

Section Frac.
  (** The standard normal distribution function: scipy's log_ndtr is its logarithm. *)
  Context (Phi : R -> R).

  (** rdp 57-63, [_log_comb], at a float [a] that is not an integer and a natural number [k]:
      scipy's gammaln(x) is ln |Gamma(x)|, so that gammaln(a + 1) - gammaln(a - k + 1) is the
      sum of ln |a - m| for m < k, and gammaln(k + 1) is ln k!. *)
  Definition log_comb_real (a : R) (k : nat) : R :=
    rsum (fun m => ln (Rabs (a - INR m))) (seq 0 k) - lnfact k.
  (** rdp 137-140, [_log_erfc] (scipy has log_ndtr). *)
  Definition log_erfc (x : R) : R := ln 2 + ln (Phi (- x * sqrt 2)).
  (** rdp 93: z0, for a finite noise multiplier [s]. *)
  Definition frac_z0 (q s : R) : R := s * s * ln (1 / q - 1) + 1 / 2.
  (** rdp 99-109: log_s0 and log_s1 of step [i]. *)
  Definition frac_s0 (q s a : R) (i : nat) : R :=
    let log_coef := log_comb_real a i in
    let j := a - INR i in
    let log_t0 := log_coef + INR i * ln q + j * ln (1 - q) in
    let log_e0 := ln (1 / 2) + log_erfc ((INR i - frac_z0 q s) / (sqrt 2 * s)) in
    log_t0 + (INR i * INR i - INR i) / (2 * (s * s)) + log_e0.
  Definition frac_s1 (q s a : R) (i : nat) : R :=
    let log_coef := log_comb_real a i in
    let j := a - INR i in
    let log_t1 := log_coef + j * ln q + INR i * ln (1 - q) in
    let log_e1 := ln (1 / 2) + log_erfc ((frac_z0 q s - j) / (sqrt 2 * s)) in
    log_t1 + (j * j - j) / (2 * (s * s)) + log_e1.
  (** rdp 98-134: the loop, with [steps] steps left and [i] the next one.  It returns the step
      at which it stops (which the code does not return) and the total; [None] if the steps
      are exhausted. *)
  Fixpoint frac_loop (q s a : R) (steps i : nat) (log_a0 log_a1 last_s0 last_s1 : logp) : option (nat * logp) :=
    match steps with
    | O => None
    | S steps =>
        let log_s0 := Some (frac_s0 q s a i) in
        let log_s1 := Some (frac_s1 q s a i) in
        let log_a0 := log_add log_a0 log_s0 in
        let log_a1 := log_add log_a1 log_s1 in
        let total := log_add log_a0 log_a1 in
        if (lltb log_s0 last_s0 && lltb log_s1 last_s1 && lltb (lmax log_s0 log_s1) (ladd total (Some (- (30)))))%bool
        then Some (i, total)
        else frac_loop q s a steps (S i) log_a0 log_a1 log_s0 log_s1
    end.
  (** rdp 81-134, [_compute_log_a_frac], for 0 < q < 1 and an order that is not an integer.
      With an infinite sigma the terms are NaN, no comparison holds and the loop runs to its end.
      The warning is not modelled. *)
  Definition log_a_frac (q : R) (sigma alpha : xr) : xr :=
    match sigma, alpha with
    | Fin s, Fin a =>
        match frac_loop q s a 1000 0 None None None None with
        | Some (_, total) => xr_of_logp total
        | None => PInf
        end
    | _, _ => PInf
    end.
End Frac.
