(** Model of python/dp_accounting/dp_accounting/privacy_accountant.py ("pa"), of the
    RdpAccountant class of rdp/rdp_privacy_accountant.py ("rdp") and of
    pld/pld_privacy_accountant.py ("pldacc"). *)
From Verif Require Import Base XReal Exn TypesEvent TypesRelation ModelBuilder ModelPmf ModelPld ModelMake ModelRdp.

(** Result of [_maybe_compose]: None, CompositionErrorDetails, or an exception. *)
Inductive mc_out := Fine | Unsup | Raise (x : exn).

(** An accountant: the state of the concrete class and the ledger (pa 42-45). *)
Record accountant (S : Type) := mkAcc { acc_state : S; acc_ledger : builder }.
Arguments mkAcc {S}. Arguments acc_state {S}. Arguments acc_ledger {S}.

Section Generic.
  (** [_maybe_compose(event, count, do_compose)] as a state transformer: the state it
      leaves behind, also when it raises. *)
  Context {S : Type} (mc : bool -> S -> event num -> Z -> S * mc_out).

  (** pa 56-69, [supports]. *)
  Definition acc_supports (A : accountant S) (e : event num) : accountant S * res bool :=
    let (s, r) := mc false (acc_state A) e 0 in
    (mkAcc s (acc_ledger A),
     match r with Fine => Ok true | Unsup => Ok false | Raise x => Err x end).

  (** pa 101-130, [compose], for an int count. *)
  Definition acc_compose (A : accountant S) (ea : event_arg) (n : Z) : accountant S * res unit :=
    match ea with
    | NotAnEvent => (A, Err TypeError)                              (* 119-120 *)
    | EventObj e =>
        let (s1, r1) := mc false (acc_state A) e n in               (* 121 *)
        match r1 with
        | Unsup => (mkAcc s1 (acc_ledger A), Err UnsupportedEventError) (* 122-126 *)
        | Raise x => (mkAcc s1 (acc_ledger A), Err x)
        | Fine =>
            let (b, r2) := builder_compose (acc_ledger A) e n in    (* 127 *)
            match r2 with
            | Err x => (mkAcc s1 b, Err x)
            | Ok _ =>
                let (s2, r3) := mc true s1 e n in                   (* 128 *)
                (mkAcc s2 b, match r3 with Raise x => Err x | _ => Ok tt end)
            end
        end
    end.

  (** pa 132-135, [ledger]. *)
  Definition acc_get_ledger (A : accountant S) : accountant S * event num :=
    let (b, e) := builder_build (acc_ledger A) in (mkAcc (acc_state A) b, e).

  (** The calls that can change an accountant. *)
  Inductive acc_call := CallAcc (e : event_arg) (n : Z) | CallSupports (e : event num) | CallLedger.
  Definition acc_step (A : accountant S) (c : acc_call) : accountant S :=
    match c with
    | CallAcc e n => fst (acc_compose A e n)
    | CallSupports e => fst (acc_supports A e)
    | CallLedger => fst (acc_get_ledger A)
    end.
  Definition acc_run (A : accountant S) (cs : list acc_call) : accountant S := fold_left acc_step cs A.
End Generic.

(** rdp 1000-1149, [RdpAccountant._maybe_compose].  The state is [self._rdp].
    [frac] is the series for fractional orders, [fuel] bounds the search of
    [_gamma_truncated_negative_binomial]. *)
Definition vec_add (s v : list xr) : list xr := map (fun xy => xadd (fst xy) (snd xy)) (combine s v).
Definition vec_scale (n : Z) (v : list xr) : list xr := map (xmul (Fin (IZR n))) v.

(** [self._rdp += count * vec] unless computing [vec] raises. *)
Definition charge (s : list xr) (n : Z) (v : res (list xr)) : list xr * mc_out :=
  match v with
  | Ok v => (vec_add s (vec_scale n v), Fine)
  | Err x => (s, Raise x)
  end.

Section Rdp.
  Context (frac : R -> xr -> xr -> xr) (fuel : nat) (rel : relation) (orders : list xr).

  Fixpoint rdp_mc (dc : bool) (s : list xr) (e : event num) (n : Z) {struct e} : list xr * mc_out :=
    match e with
    | NoOp => (s, Fine)                                                  (* 1005-1006 *)
    | NonPrivate =>                                                      (* 1007-1010 *)
        if dc then (map (fun r => xadd r PInf) s, Fine) else (s, Fine)
    | SelfComposed e c => rdp_mc dc s e (c * n)                          (* 1011-1012 *)
    | Composed es =>                                                     (* 1013-1018 *)
        (fix go (l : list (event num)) (s : list xr) : list xr * mc_out :=
           match l with
           | [] => (s, Fine)
           | e :: l => let (s, r) := rdp_mc dc s e n in
                       match r with Fine => go l s | _ => (s, r) end
           end) es s
    | Gaussian sigma =>                                                  (* 1019-1024 *)
        if dc then charge s n (rdp_poisson_gaussian frac (Fin 1) (SNum (nval sigma)) orders)
        else (s, Fine)
    | PoissonSampled q e =>                                              (* 1025-1055 *)
        if relation_eqb rel REPLACE_ONE then (s, Unsup)
        else match effective_noise e with
             | Err x => (s, Raise x)
             | Ok (EffBad _) => (s, Unsup)
             | Ok ef =>
                 if dc then charge s n (rdp_poisson_gaussian frac (nval q)
                   (match ef with EffNum m => SNum (nval m) | _ => SComplex end) orders)
                 else (s, Fine)
             end
    | SampledWithoutReplacement source size e =>                         (* 1056-1083 *)
        if negb (relation_eqb rel REPLACE_ONE) then (s, Unsup)
        else match effective_noise e with
             | Err x => (s, Raise x)
             | Ok (EffBad _) => (s, Unsup)
             | Ok ef =>
                 if dc then
                   if (source =? 0)%Z then (s, Raise ZeroDivisionError)
                   else charge s n (rdp_wor_gaussian (IZR size / IZR source)
                     (match ef with EffNum m => SNum (nval m) | _ => SComplex end) orders)
                 else (s, Fine)
             end
    | TreeAggregation sigma st =>                                        (* 1084-1098 *)
        if negb (relation_eqb rel REPLACE_SPECIAL) then (s, Unsup)
        else if dc then charge s n (rdp_tree (nval sigma) st orders) else (s, Fine)
    | Laplace b =>                                                       (* 1099-1105 *)
        if dc then
          match nval b with
          | Fin x => if Reqb x 0 then (s, Raise ZeroDivisionError)
                     else charge s n (map_res (laplace_rdp (1 / x)) orders)
          | _ => charge s n (map_res (laplace_rdp 0) orders)
          end
        else (s, Fine)
    | RepeatAndSelect e mean shape =>                                    (* 1106-1123 *)
        let (s1, r) := rdp_mc dc (if dc then map (fun _ => Fin 0) orders else s) e 1 in
        match r with
        | Fine =>
            if dc then
              match rdp_repeat_and_select fuel orders s1 (nval mean) (nval shape) with
              | Ok v => (vec_add (vec_scale n v) s, Fine)
              | Err x => (s1, Raise x)
              end
            else (s1, Fine)
        | _ => (s1, r)
        end
    | RandResp p k =>                                                    (* 1124-1144 *)
        if relation_eqb rel ADD_OR_REMOVE_ONE then (s, Unsup)
        else if dc then charge s n (rdp_randomized_response (nval p) k orders rel) else (s, Fine)
    | _ => (s, Unsup)                                                    (* 1145-1149 *)
    end.

  (** rdp 983-998, [__init__]. *)
  Definition rdp_new : accountant (list xr) := mkAcc (map (fun _ => Fin 0) orders) new_builder.
  (** rdp 1166-1175 and 1190-1199, [get_epsilon], [get_delta]. *)
  Definition rdp_epsilon (A : accountant (list xr)) (delta : R) : res xr :=
    let? r := compute_epsilon orders (acc_state A) delta in Ok (fst r).
  Definition rdp_delta (A : accountant (list xr)) (eps : xr) : res xr :=
    let? r := compute_delta orders (acc_state A) eps in Ok (fst r).
End Rdp.

(** pldacc 31-40: the state of a PLDAccountant. *)
Record pld_state := mkPldState { non_dp : bool; cur_pld : pld }.

Section Pld.
  (** The constructors of privacy loss distributions that depend on continuous
      distributions are arguments: standard deviation (parameter), sampling
      probability; standard deviation, sensitivities, probabilities. *)
  Context (gaussian_pld laplace_pld : xr -> xr -> res pld)
          (mixture_pld : xr -> list xr -> list xr -> res pld)
          (fast_len : nat -> nat) (rel : relation) (disc tail : R).

  (** [self._pld = self._pld.compose(other)], default tail_mass_truncation. *)
  Definition pld_charge (s : pld_state) (other : res pld) : pld_state * mc_out :=
    match (let? o := other in pld_compose (cur_pld s) o tail) with
    | Ok D => (mkPldState (non_dp s) D, Fine)
    | Err x => (s, Raise x)
    end.
  Definition self_composed (D : res pld) (n : Z) : res pld :=
    let? D := D in pld_self_compose fast_len D n tail.
  Definition flag (s : pld_state) : pld_state := mkPldState true (cur_pld s).

  (** pldacc 42-165, [PLDAccountant._maybe_compose]. *)
  Fixpoint pld_mc (dc : bool) (s : pld_state) (e : event num) (n : Z) {struct e} : pld_state * mc_out :=
    match e with
    | NoOp => (s, Fine)                                            (* 44-45 *)
    | NonPrivate => if dc then (flag s, Fine) else (s, Fine)       (* 46-49 *)
    | SelfComposed e c => pld_mc dc s e (c * n)                    (* 50-51 *)
    | Composed es =>                                               (* 52-57 *)
        (fix go (l : list (event num)) (s : pld_state) : pld_state * mc_out :=
           match l with
           | [] => (s, Fine)
           | e :: l => let (s, r) := pld_mc dc s e n in
                       match r with Fine => go l s | _ => (s, r) end
           end) es s
    | RandResp p k =>                                              (* 58-81 *)
        if relation_eqb rel ADD_OR_REMOVE_ONE then (s, Unsup)
        else if dc then
          if (k =? 1)%Z then (s, Fine)
          else if xeqb (nval p) (Fin 0) then (flag s, Fine)
          else pld_charge s (match nval p with
                             | Fin p => from_randomized_response p k true disc rel
                             | _ => Err ValueError
                             end)
        else (s, Fine)
    | Gaussian sigma =>                                            (* 82-91 *)
        if dc then
          if xeqb (nval sigma) (Fin 0) then (flag s, Fine)
          else if (n <? 0)%Z then (s, Raise ValueError)            (* math.sqrt *)
          else if (n =? 0)%Z then (s, Raise ZeroDivisionError)
          else pld_charge s (gaussian_pld (xdiv (nval sigma) (Fin (sqrt (IZR n)))) (Fin 1))
        else (s, Fine)
    | Laplace b =>                                                 (* 92-102 *)
        if dc then
          if xeqb (nval b) (Fin 0) then (flag s, Fine)
          else pld_charge s (self_composed (laplace_pld (nval b) (Fin 1)) n)
        else (s, Fine)
    | MixtureOfGaussians sd sens probs =>                          (* 103-117 *)
        if dc then
          if match sens with [x] => xeqb (nval x) (Fin 0) | _ => false end then (s, Fine)
          else if xeqb (nval sd) (Fin 0) then (flag s, Fine)
          else pld_charge s (self_composed (mixture_pld (nval sd) (map nval sens) (map nval probs)) n)
        else (s, Fine)
    | PoissonSampled q e =>                                        (* 118-161 *)
        if relation_eqb rel REPLACE_ONE then (s, Unsup)
        else
          let sub (x : num) (mk : xr -> xr -> res pld) :=
            if dc then
              if xeqb (nval q) (Fin 0) then (s, Fine)
              else if xeqb (nval x) (Fin 0) then (flag s, Fine)
              else pld_charge s (self_composed (mk (nval x) (nval q)) n)
            else (s, Fine) in
          match e with
          | Gaussian x => sub x gaussian_pld
          | Laplace x => sub x laplace_pld
          | _ => (s, Unsup)
          end
    | _ => (s, Unsup)                                              (* 162-165 *)
    end.

  (** pldacc 31-40, [__init__]. *)
  Definition pld_new : res (accountant pld_state) :=
    let? D := identity disc in Ok (mkAcc (mkPldState false D) new_builder).
End Pld.

(** pldacc 167-175, [get_epsilon], [get_delta]. *)
Definition pldacc_epsilon (s : pld_state) (delta : R) : res xr :=
  if non_dp s then Ok PInf else pld_epsilon (cur_pld s) delta.
Definition pldacc_delta (s : pld_state) (eps : xr) : R :=
  if non_dp s then 1 else pld_delta (cur_pld s) eps.
