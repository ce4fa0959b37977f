(** Trust-region solvers: the properties. *)
From Coq Require Import QArith Reals List Bool Sorted.
From Verif Require Import Arith TrustRegionModel TrustRegionSpec TrustRegionFacts TrustRegionWitness.
Import ListNotations.
Local Open Scope nat_scope.

(** C29. Exact arithmetic with special values; every retraction, objective and inner solver. *)
Theorem C29_radius_bounds :
  forall (big eps : R) (G : trgeo (X_arith big eps)) (X : Type) q (e : tenv _ G (X:=X))
         x0 x20 gf20 eta20 rho0 st0 aux0 sh mg dmin dmax d0,
  let A := X_arith big eps in
  radius_params big eps q sh mg dmin dmax d0 ->
  let s0 := tstart A G q e x0 x20 gf20 eta20 rho0 st0 aux0 in
  (forall s l, tvisited q e s0 s l -> exists d, tDelta A G s = Fin d /\ (0 < d <= dmax)%R /\ (dmin <= d)%R) /\
  (forall sf l, tends q e s0 sf l -> exists d, tDelta A G sf = Fin d /\ (0 < d <= dmax)%R).
Proof. exact run_radius. Qed.
Print Assumptions C29_radius_bounds.

Example C29_example := trun_example.

(** C30, one step: when the model value of the candidate is negative, the step is either
    rejected and nothing changes, or accepted and the value decreases.
    Missing: Accuracy > 0, where it is false (C30_accuracy_refuted). *)
Theorem C30_step_partial :
  forall (big eps : R) (G : trgeo (X_arith big eps)) (X : Type) q (e : tenv _ G (X:=X))
         x0 x20 gf20 eta20 rho0 st0 aux0 s l s' m c tol v0,
  let A := X_arith big eps in
  tvisited q e (tstart A G q e x0 x20 gf20 eta20 rho0 st0 aux0) s l -> tbody A G q e s = inl s' ->
  Acceptence_Rho A q = Fin c -> (0 <= c)%R -> tTolerance A q = Fin tol -> (0 <= tol)%R -> tAccuracy A q = Fin 0 ->
  tf A G x0 = Fin v0 ->
  model_diff A G e (with_cand A G e s) = Fin m -> (m < 0)%R ->
  exists v v', tf1 A G s = Fin v /\ tf1 A G s' = Fin v' /\
  ((tx1 A G s' = tx1 A G s /\ v' = v) \/
   (tx1 A G s' = tretr A G (tx1 A G s) (fst (inner A G e s)) /\ (v' < v)%R)).
Proof. exact @step_decreases. Qed.
Print Assumptions C30_step_partial.

(** C30 along a run; the list is newest first. *)
Theorem C30_monotone_partial :
  forall (big eps : R) (G : trgeo (X_arith big eps)) (X : Type) q (e : tenv _ G (X:=X))
         x0 x20 gf20 eta20 rho0 st0 aux0 s l c tol v0,
  let A := X_arith big eps in
  tvisited q e (tstart A G q e x0 x20 gf20 eta20 rho0 st0 aux0) s l ->
  Acceptence_Rho A q = Fin c -> (0 <= c)%R -> tTolerance A q = Fin tol -> (0 <= tol)%R -> tAccuracy A q = Fin 0 ->
  tf A G x0 = Fin v0 ->
  (forall r, In r (tl l) -> exists m, model_diff A G e (with_cand A G e r) = Fin m /\ (m < 0)%R) ->
  Sorted (fun s s' => exists v v', tf1 A G s = Fin v /\ tf1 A G s' = Fin v' /\ (v <= v')%R) l.
Proof. exact @run_monotone. Qed.
Print Assumptions C30_monotone_partial.

(** C30 for RTRNewton with its truncated CG: the model decrease is not assumed. Exact
    arithmetic, every objective, manifold and self-adjoint Hessian; the gradient stopping
    test. *)
Theorem C30_newton_monotone :
  forall (big eps : R) (G : trgeo (R_arith big eps)) vscal0 proj0 hess0 prec0 minv0 p el q,
  let A := R_arith big eps in
  let e := newton_env G vscal0 proj0 hess0 prec0 p el in
  (forall x, inner_product_space (space_at G vscal0 proj0 hess0 prec0 x)) ->
  (forall x, inverse_of_prec (space_at G vscal0 proj0 hess0 prec0 x) (minv0 x)) ->
  Min_Inner_Iter A p = 0 -> 0 < Max_Inner_Iter A p -> (0 <= kappa A p)%R ->
  (forall t : R, (0 <= t)%R -> (0 <= powtheta A p t)%R) ->
  (0 <= Acceptence_Rho A q)%R -> (0 < tTolerance A q)%R -> tAccuracy A q = 0%R -> tcrit A q = TGRAD_F ->
  tMin_Iteration A q = 0 -> (0 < Shrinked_tau A q)%R -> (0 < Magnified_tau A q)%R -> (0 < maximum_Delta A q)%R ->
  (0 < initial_Delta A q)%R ->
  forall x0 x20 gf20 eta20 rho0 st0 s l,
  tvisited q e (tstart A G q e x0 x20 gf20 eta20 rho0 st0 tt) s l ->
  Sorted (fun a b => (tf1 A G a <= tf1 A G b)%R) l.
Proof. exact @newton_monotone. Qed.
Print Assumptions C30_newton_monotone.

Example C30_newton_example := (rgeo_space, rgeo_minv).

Theorem C30_accuracy_refuted :
  exists (G : trgeo D_arith) q (e : tenv D_arith G (X:=unit)) n x0 x20 t0 c0 st0 sf,
  let A := D_arith in
  let s0 := tstart A G q e x0 x20 t0 t0 c0 st0 tt in
  trun A G q e n s0 = TDone A G sf /\ flt (model_diff A G e (with_cand A G e s0)) (fq 0) = true /\
  flt (tf A G x0) (tf1 A G sf) = true.
Proof. exact accepted_increase_ex. Qed.
Print Assumptions C30_accuracy_refuted.

(** C31. [rlimits]: kappa and pow(.,theta) not negative.  [never_solved]: Min_Inner_Iter = 0 (the
    default), or the model has no critical point inside the region.
    Missing: a forced pass after the exact solution, where it is false (C31_min_inner_refuted). *)
Theorem C31_norm_partial :
  forall (big eps : R) (G : tspace (R_arith big eps)) p g (Delta : R) v st n,
  inner_product_space G -> (forall w, prec _ G w = w) -> rlimits p -> never_solved G (fun w => w) p g Delta -> (0 < Delta)%R -> (0 < inp G g g)%R ->
  tcg _ G p g Delta (initial_vector _ G g) = (v, st, n) ->
  (sqrt (inp G v v) <= Delta /\ (st = EXCREGION \/ st = NEGCURVTURE -> sqrt (inp G v v) = Delta))%R.
Proof. exact inner_norm. Qed.
Print Assumptions C31_norm_partial.

(** The same with a preconditioner: the norm is that of its inverse. *)
Theorem C31_preconditioned_partial :
  forall (big eps : R) (G : tspace (R_arith big eps)) Minv p g (Delta : R) v st n,
  inner_product_space G -> inverse_of_prec G Minv -> rlimits p -> never_solved G Minv p g Delta -> (0 < Delta)%R -> (0 < inp G g g)%R ->
  tcg _ G p g Delta (initial_vector _ G g) = (v, st, n) ->
  (inp G (Minv v) v <= Delta * Delta /\ (st = EXCREGION \/ st = NEGCURVTURE -> inp G (Minv v) v = Delta * Delta))%R.
Proof. exact inner_region. Qed.
Print Assumptions C31_preconditioned_partial.

Example C31_example := (inner_boundary, rspace_inner, rspace_minv, rspace_forced).

Theorem C31_min_inner_refuted :
  exists (G : tspace D_arith) p g Delta v st n,
  let A := D_arith in
  tcg A G p g Delta (initial_vector A G g) = (v, st, n) /\ Min_Inner_Iter A p = 1 /\ 1 < Max_Inner_Iter A p /\
  flt (fq 0) Delta = true /\ fle (met A G v v) (fmul Delta Delta) = false.
Proof. exact inner_nan_ex. Qed.
Print Assumptions C31_min_inner_refuted.

(** C32. The second part: not worse than any admissible point on the (preconditioned)
    steepest-descent ray. *)
Theorem C32_model_partial :
  forall (big eps : R) (G : tspace (R_arith big eps)) Minv p g (Delta : R) v st n,
  inner_product_space G -> inverse_of_prec G Minv -> rlimits p -> never_solved G Minv p g Delta -> (0 < Delta)%R -> (0 < inp G g g)%R ->
  tcg _ G p g Delta (initial_vector _ G g) = (v, st, n) ->
  (quad G g v <= 0 /\
  ((0 < Max_Inner_Iter _ p)%nat -> forall t w, 0 <= t -> (forall u, inp G w u = - t * inp G (prec _ G g) u) ->
     inp G (Minv w) w <= Delta * Delta -> quad G g v <= quad G g w))%R.
Proof. exact inner_model. Qed.
Print Assumptions C32_model_partial.

Example C32_example := (inner_interior, rspace_inner, rspace_minv, rspace_forced).

Theorem C32_min_inner_refuted :
  exists (G : tspace D_arith) p g Delta v st n,
  let A := D_arith in
  tcg A G p g Delta (initial_vector A G g) = (v, st, n) /\ Min_Inner_Iter A p = 1 /\ 1 < Max_Inner_Iter A p /\
  flt (fq 0) Delta = true /\ fle (fadd (met A G v g) (fmul (fq (1#2)) (met A G v (hess A G v)))) (fq 0) = false.
Proof. exact inner_nan_model. Qed.
Print Assumptions C32_min_inner_refuted.

(** C33. The gradient series lists the iterates' gradient norms. The function series lists
    the values of the candidates, which are the iterates' values only after accepted steps. *)
Theorem C33_series_partial :
  forall (A : arith) (G : trgeo A) (X : Type) q (e : tenv A G (X:=X)) x0 x20 gf20 eta20 rho0 st0 aux0 sf l,
  let s0 := tstart A G q e x0 x20 gf20 eta20 rho0 st0 aux0 in
  trecording A q = true -> tends q e s0 sf l ->
  tfun A G sf = map Some (map (tf2 A G) (rev l)) ++ repeat None (tMax_Iteration A q - titer A G sf) /\
  tgrads A G sf = map Some (map (fun s => fsqrt (tmet A G (tx1 A G s) (tgrad A G (tx1 A G s)) (tgrad A G (tx1 A G s)))) (rev l))
     ++ repeat None (tMax_Iteration A q - titer A G sf).
Proof. exact @tends_histories. Qed.
Print Assumptions C33_series_partial.

Theorem C33_entry_partial :
  forall (A : arith) (G : trgeo A) (X : Type) q (e : tenv A G (X:=X)) x0 x20 gf20 eta20 rho0 st0 aux0 s l s',
  let s0 := tstart A G q e x0 x20 gf20 eta20 rho0 st0 aux0 in
  tvisited q e s0 s l -> tbody A G q e s = inl s' ->
  tf2 A G s0 = tf A G x0 /\
  let y := tretr A G (tx1 A G s) (fst (inner A G e s)) in
  ((tx1 A G s' = y /\ tf2 A G s' = tf A G y) \/ (tx1 A G s' = tx1 A G s /\ tf2 A G s' = tf A G y)).
Proof. exact @step_entry. Qed.
Print Assumptions C33_entry_partial.

Theorem C33_rejected_refuted :
  exists (G : trgeo D_arith) q (e : tenv D_arith G (X:=unit)) n x0 x20 t0 c0 st0 sf l v,
  let A := D_arith in
  let s0 := tstart A G q e x0 x20 t0 t0 c0 st0 tt in
  trun A G q e n s0 = TDone A G sf /\ tends q e s0 sf l /\ titer A G sf = 1 /\
  nth 1 (tfun A G sf) None = Some v /\ feq v (tf A G (tx1 A G sf)) = false /\ feq v (tf1 A G sf) = false.
Proof. exact rejected_series_ex. Qed.
Print Assumptions C33_rejected_refuted.

(** C60. Returned value, gradient and gradient norm belong to the returned point, which is
    the newest iterate and never has a NaN or infinite value unless it is the start. *)
Theorem C60_returned :
  forall (A : arith) (G : trgeo A) (X : Type) q (e : tenv A G (X:=X)) x0 x20 gf20 eta20 rho0 st0 aux0 n sf,
  let s0 := tstart A G q e x0 x20 gf20 eta20 rho0 st0 aux0 in
  trun A G q e n s0 = TDone A G sf ->
  tf1 A G sf = tf A G (tx1 A G sf) /\ tgf1 A G sf = tgrad A G (tx1 A G sf) /\
  tngf1 A G sf = fsqrt (tmet A G (tx1 A G sf) (tgrad A G (tx1 A G sf)) (tgrad A G (tx1 A G sf))) /\
  (tx1 A G sf = x0 \/ fbad (tf1 A G sf) = false) /\
  titer A G sf <= Nat.max (tMax_Iteration A q) (tMin_Iteration A q) /\
  exists l, tends q e s0 sf l /\ hd_error (map (tx1 A G) l) = Some (tx1 A G sf).
Proof. exact @trun_done. Qed.
Print Assumptions C60_returned.

Example C60_example := trun_example.

(** C61. The loop ends, and its records stay inside the arrays. *)
Theorem C61_returns :
  forall (A : arith) (G : trgeo A) (X : Type) q (e : tenv A G (X:=X)) x0 x20 gf20 eta20 rho0 st0 aux0 n,
  Nat.max (tMax_Iteration A q) (tMin_Iteration A q) <= n ->
  trun A G q e n (tstart A G q e x0 x20 gf20 eta20 rho0 st0 aux0) <> TNoAnswer A G.
Proof. exact @trun_returns. Qed.
Print Assumptions C61_returns.

(** Missing: Min_Iteration > Max_Iteration with recording on (C61_out_of_bounds_refuted). *)
Theorem C61_in_bounds_partial :
  forall (A : arith) (G : trgeo A) (X : Type) q (e : tenv A G (X:=X)) x0 x20 gf20 eta20 rho0 st0 aux0 n,
  trecording A q = false \/ tMin_Iteration A q <= tMax_Iteration A q ->
  trun A G q e n (tstart A G q e x0 x20 gf20 eta20 rho0 st0 aux0) <> TOutOfBounds A G.
Proof. exact @trun_in_bounds. Qed.
Print Assumptions C61_in_bounds_partial.

Theorem C61_out_of_bounds_refuted :
  exists (G : trgeo D_arith) q (e : tenv D_arith G (X:=unit)) n x0 x20 t0 c0 st0,
  let A := D_arith in
  let s0 := tstart A G q e x0 x20 t0 t0 c0 st0 tt in
  tMax_Iteration A q < tMin_Iteration A q /\ trun A G q e n s0 = TOutOfBounds A G.
Proof. exact toob_ex. Qed.
Print Assumptions C61_out_of_bounds_refuted.

(** C62. A converged status means that the residual test holds for the returned step; the
    error status is never returned. w is the residual g + H v. *)
Theorem C62_residual :
  forall (big eps : R) (G : tspace (R_arith big eps)) Minv p g (Delta : R) v st n w,
  inner_product_space G -> inverse_of_prec G Minv -> (0 < Delta)%R ->
  tcg _ G p g Delta (initial_vector _ G g) = (v, st, n) ->
  (forall u, inp G w u = inp G g u + inp G (hess _ G v) u)%R ->
  (st <> TRERROR /\
  (st = LCON \/ st = SCON ->
   sqrt (inp G w w) <= sqrt (inp G g g) * kappa _ p /\ sqrt (inp G w w) <= sqrt (inp G g g) * powtheta _ p (sqrt (inp G g g))))%R.
Proof. exact inner_residual. Qed.
Print Assumptions C62_residual.

Example C62_example := (inner_interior, rspace_inner, rspace_minv).
