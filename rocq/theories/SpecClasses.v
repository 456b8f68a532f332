(** The four classes of additive noise, each with the law of its noise: [m] is the object that
    the constructor returns for a sensitivity [s], a sampling probability [q] and a kind of
    adjacency; [F] is the law of the noise and [f] its density (or its probabilities, on the
    integers) up to a factor; [ok] holds of the values of a query that may be protected with
    it. *)
From Verif Require Import Base XReal Exn TypesAdjacency SpecMech ModelMech.

Inductive additive_noise (m : monotone) : (R -> Prop) -> (R -> R) -> (R -> R) -> R -> R -> adjacency -> Prop :=
| laplace_noise b s q adj :
    LaplacePrivacyLoss b s q adj = Ok m ->
    additive_noise m any_value (laplace_law b) (fun x => exp (- Rabs x / b)) s q adj
| gaussian_noise Phi ppf sigma s pess log_bound q adj :
    normal_cdf Phi -> GaussianPrivacyLoss Phi ppf sigma s pess log_bound q adj = Ok m ->
    additive_noise m any_value (fun x => Phi (x / sigma)) (fun x => exp (- (x * x) / (2 * (sigma * sigma)))) s q adj
| discrete_laplace_noise a s q adj F :
    integer_noise (dlaplace_weights a) F -> DiscreteLaplacePrivacyLoss a s q adj = Ok m ->
    additive_noise m integer_value F (fun x => dlaplace_weights a (Rfloor x)) (IZR s) q adj
| discrete_gaussian_noise sigma s bound q adj F :
    integer_noise (dgaussian_weights sigma bound) F -> DiscreteGaussianPrivacyLoss sigma s bound q adj = Ok m ->
    additive_noise m integer_value F (fun x => dgaussian_weights sigma bound (Rfloor x)) (IZR s) q adj.
