(** Search directions of RCG and RNewton: the properties. *)
From Coq Require Import QArith Reals List Bool.
From Coq Require Import Floats.SpecFloat.
From Verif Require Import Arith TrustRegionModel TrustRegionSpec DirectionModel DirectionSpec DirectionProofs NewtonProofs DirectionFacts.
Local Open Scope R_scope.

(** C41 in exact arithmetic: every rule, every preconditioner, transport, line search and
    history; [rcg_dir .. k] is the state in pass k right after the direction was chosen.
    Missing: IEEE arithmetic, where it is false (C41_nan_refuted). *)
Theorem C41_descent_partial :
  forall (big eps : R) (G : rgeo (R_arith big eps)) m, metric_laws G ->
  forall ls x0 g0 e0 p0 sg k,
  let s := rcg_dir _ G m ls (rcg_start _ G x0 g0 e0 p0 sg) k in
  0 < rmet G (rx1 s) (rgf1 s) (rgf1 s) -> rmet G (rx1 s) (reta1 s) (rgf1 s) < 0.
Proof. exact @direction_descent. Qed.
Print Assumptions C41_descent_partial.

Example C41_example := @plane_laws 1 0.

(** In binary64, default rule: the gradients (1,0), (0,1), (1,0) make the quotient 1/0; the
    direction becomes (-Inf,-Inf), its slope NaN, and the restart test lets it through. *)
Theorem C41_nan_refuted :
  exists (G : rgeo D_arith) m ls s0 k, let s := rcg_dir D_arith G m ls s0 k in
  flt (fq 0) (rmet G (rx1 s) (rgf1 s) (rgf1 s)) = true /\
  flt (rmet G (rx1 s) (reta1 s) (rgf1 s)) (fq 0) = false.
Proof. exact nan_refuted. Qed.
Print Assumptions C41_nan_refuted.

(** C67: on a strictly convex quadratic in a Euclidean space with exact line searches all six
    rules are the textbook conjugate gradient method, as long as the gradient is not zero;
    gradients are orthogonal and directions conjugate. *)
Theorem C67_linear_cg :
  forall (big eps : R) (G : rgeo (R_arith big eps)) m, euclidean G ->
  forall H, convex_quadratic G H -> 0 <= eps < 1 -> m <> OTHER ->
  forall x0 ls, exact_search H ls ->
  forall g0 e0 p0 sg n,
  let s k := rcg_dir _ G m ls (rcg_start _ G x0 g0 e0 p0 sg) k in
  (forall i, (i <= n)%nat -> 0 < rmet G x0 (rgf1 (s i)) (rgf1 (s i))) ->
  textbook_cg (fun v w => rmet G x0 v w) (fun k => rgf1 (s k)) (fun k => reta1 (s k)) n /\
  (forall i j, (i < j <= n)%nat ->
     rmet G x0 (rgf1 (s j)) (rgf1 (s i)) = 0 /\ rmet G x0 (reta1 (s j)) (H (reta1 (s i))) = 0).
Proof. exact @linear_cg. Qed.
Print Assumptions C67_linear_cg.

Example C67_example_space := @plane_euclidean 1 0.
Example C67_example_quadratic := @quadratic_ok 1 0.
Example C67_example_search := @ls_exact_ok 1 0.
Example C67_example_nonzero := @q_nonzero 1 0.

(** C46: if the inner iteration of RNewton reports convergence after at least one completed
    pass, the returned direction has the residual the test asks for.
    Missing: convergence in the first pass, where it is false (C46_first_refuted). *)
Theorem C46_residual_partial :
  forall (big eps : R) (G : tspace (R_arith big eps)) p g, inner_product_space G -> 0 < inp G g g ->
  let '(eta, st, j) := newton_dir _ G p g in
  inp G eta g < 0 /\
  (j = 0%nat -> forall u, inp G eta u = - inp G (prec _ G g) u) /\
  ((st = LS_LCON \/ st = LS_SCON) -> (0 < j)%nat ->
    forall w, (forall u, inp G w u = inp G g u + inp G (hess _ G eta) u) ->
      sqrt (inp G w w) <= sqrt (inp G g g) * kappa _ p /\
      sqrt (inp G w w) <= sqrt (inp G g g) * powtheta _ p (sqrt (inp G g g))).
Proof. exact @newton_dir_good. Qed.
Print Assumptions C46_residual_partial.

Example C46_example := second_converges.

(** Convergence is reported, but the direction returned has a residual as large as the
    gradient. *)
Theorem C46_first_refuted :
  exists (G : tspace (R_arith 1 0)) p g eta w, inner_product_space G /\ 0 < inp G g g /\
  newton_dir _ G p g = (eta, LS_LCON, 0%nat) /\
  (forall u, inp G w u = inp G g u + inp G (hess _ G eta) u) /\
  sqrt (inp G g g) * kappa _ p < sqrt (inp G w w).
Proof. exact newton_first_refuted. Qed.
Print Assumptions C46_first_refuted.

(** C66: RNewton's direction is a descent direction, whatever the Hessian. *)
Theorem C66_newton_descent :
  forall (big eps : R) (G : tspace (R_arith big eps)) p g, inner_product_space G -> 0 < inp G g g ->
  forall eta st j, newton_dir _ G p g = (eta, st, j) -> inp G eta g < 0.
Proof. exact @newton_descent. Qed.
Print Assumptions C66_newton_descent.

Example C66_example := nplane_ok.
