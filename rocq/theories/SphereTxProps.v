(** Theorems about the unit sphere of a tangent space (C115, C116) and the extreme eigenvalues of
    a Hessian computed on it (C117). *)
From Coq Require Import List Arith Reals.
Import ListNotations.
From Verif Require Import Arith MatOpsModel TangentModel TangentSpec TangentFacts SphereTxModel SphereTxSpec SphereTxProofs SphereTxRQ SphereTxFacts.
Local Open Scope R_scope.

Theorem C115_projection : forall (big eps : R) d g P, tangent_space d g P -> forall x v, on_sphere d g P x -> length v = d ->
  tangent_at d g P x (tx_projection (A := R_arith big eps) g P x v) /\
  forall w, tangent_at d g P x w -> g (tx_projection (A := R_arith big eps) g P x v) w = g v w.
Proof. exact projection_facts. Qed.
Print Assumptions C115_projection.
Theorem C115_random_point : forall (big eps : R) d g P, tangent_space d g P -> forall v, length v = d -> P v <> zero d ->
  on_sphere d g P (tx_random (A := R_arith big eps) g P v).
Proof. exact random_on_sphere. Qed.
Print Assumptions C115_random_point.
Theorem C115_retraction_partial : forall (big eps : R) d g P, tangent_space d g P ->
  forall x eta, on_sphere d g P x -> tangent_at d g P x eta -> 0 < eps <= 1 ->
  let y := tx_retraction (A := R_arith big eps) sin cos g x eta in
  on_sphere d g P y /\
  (eps <= sqrt (g eta eta) -> y = end_point g x eta) /\
  let diff := comb (-1) y (end_point g x eta) in sqrt (g diff diff) < eps.
Proof. exact retraction_facts. Qed.
Print Assumptions C115_retraction_partial.
Example C115_example : tangent_space 3 inner plane /\ on_sphere 3 inner plane [3/5; 4/5; 0] /\
  tangent_at 3 inner plane [3/5; 4/5; 0] [-4; 3; 0] /\ plane [1; 2; 3] <> zero 3.
Proof. exact space_example. Qed.
(** Steps shorter than eps stay at x, so t -> R (t eta) does not start with velocity eta. *)
Theorem C115_refuted : forall big eps : R, 0 < eps <= 1 -> exists d g P x eta,
  tangent_space d g P /\ on_sphere d g P x /\ tangent_at d g P x eta /\ eta <> zero d /\
  ~ (forall i, derivable_pt_lim (fun t => nth i (tx_retraction (A := R_arith big eps) sin cos g x (comb t eta (zero d)) : list R) 0) 0 (nth i eta 0)).
Proof. exact no_velocity. Qed.
Print Assumptions C115_refuted.

Theorem C116_transports_partial : forall (big eps : R) d g P, tangent_space d g P ->
  forall x y, on_sphere d g P x -> on_sphere d g P y -> y <> opposite x -> forall eta,
  let T := tx_transport (A := R_arith big eps) g x eta y in
  let Tinv := tx_inverse_transport (A := R_arith big eps) g x eta y in
  (forall v, tangent_at d g P x v -> tangent_at d g P y (T v) /\ Tinv (T v) = v) /\
  (forall v w, tangent_at d g P x v -> tangent_at d g P x w -> g (T v) (T w) = g v w) /\
  (forall w, tangent_at d g P y w -> tangent_at d g P x (Tinv w) /\ T (Tinv w) = w).
Proof. exact transport_facts. Qed.
Print Assumptions C116_transports_partial.
Theorem C116_derivative_same_direction_partial : forall (big eps : R) d g P, tangent_space d g P ->
  forall x eta c, on_sphere d g P x -> tangent_at d g P x eta -> 0 < eps -> eps < sqrt (g eta eta) ->
  let R := tx_retraction (A := R_arith big eps) sin cos g in
  let y := R x eta in y <> opposite x ->
  forall i, derivable_pt_lim (fun t => nth i (R x (comb t (comb c eta (zero d)) eta) : list _) 0) 0
    (nth i (tx_diff_same_direction (A := R_arith big eps) g x eta y (comb c eta (zero d)) : list _) 0).
Proof. exact same_direction. Qed.
Print Assumptions C116_derivative_same_direction_partial.
Example C116_example : on_sphere 3 inner plane [1; 0; 0] /\ on_sphere 3 inner plane [0; 1; 0] /\
  [0; 1; 0] <> opposite [1; 0; 0] /\ tangent_at 3 inner plane [1; 0; 0] [0; PI / 2; 0] /\
  1 / 2 < sqrt (inner [0; PI / 2; 0] [0; PI / 2; 0]) /\
  tx_retraction (A := R_arith 1 (1/2)) sin cos inner [1; 0; 0] [0; PI / 2; 0] <> opposite [1; 0; 0].
Proof. exact transport_example. Qed.
(** Between opposite points the transport is 0/0. *)
Theorem C116_refuted : forall i, (i < 2)%nat ->
  fbad (nth i (tx_transport (A := D_arith) (@dotp D_arith) [d1; d0] [d0; d0] [dm1; d0] [d0; d1]) d0) = true.
Proof. exact antipodal. Qed.
Print Assumptions C116_refuted.

Theorem C117_derivatives : forall (big eps : R) d g P, tangent_space d g P -> forall H, operator d g P H ->
  forall ismin x u, on_sphere d g P x -> tangent_at d g P x u -> g u u = 1 -> exists f' : R -> R,
  (forall t, derivable_pt_lim (fun t => rq_f (A := R_arith big eps) g H ismin (great_circle x u t)) t (f' t)) /\
  f' 0 = g (rq_grad (A := R_arith big eps) g P H ismin x) u /\
  derivable_pt_lim f' 0 (g (rq_hess (A := R_arith big eps) g P H ismin x u) u).
Proof. exact derivatives. Qed.
Print Assumptions C117_derivatives.
Theorem C117_hessian_symmetric : forall (big eps : R) d g P, tangent_space d g P -> forall H, operator d g P H ->
  forall ismin x u v, on_sphere d g P x -> tangent_at d g P x u -> tangent_at d g P x v ->
  g (rq_hess (A := R_arith big eps) g P H ismin x u) v = g u (rq_hess (A := R_arith big eps) g P H ismin x v).
Proof. exact hess_sym. Qed.
Print Assumptions C117_hessian_symmetric.
Theorem C117_extreme_eigenvalues : forall (big eps : R) d g P H x z, tangent_space d g P -> operator d g P H ->
  on_sphere d g P x -> rq_grad (A := R_arith big eps) g P H true x = zero d ->
  (forall eta, tangent_at d g P x eta -> 0 <= g (rq_hess (A := R_arith big eps) g P H true x eta) eta) ->
  on_sphere d g P z -> rq_grad (A := R_arith big eps) g P H false z = zero d ->
  (forall eta, tangent_at d g P z eta -> 0 <= g (rq_hess (A := R_arith big eps) g P H false z eta) eta) ->
  let (lo, hi) := eig_values (A := R_arith big eps) g H x z in
  H x = comb lo x (zero d) /\ H z = comb hi z (zero d) /\
  forall y, on_sphere d g P y -> lo <= g (H y) y <= hi.
Proof. exact extreme_eigenvalues. Qed.
Print Assumptions C117_extreme_eigenvalues.
Example C117_example : let A := R_arith 1 1 in let x := [1; 0; 0] in let z := [0; 1; 0] in
  tangent_space 3 inner plane /\ operator 3 inner plane diag25 /\
  on_sphere 3 inner plane x /\ on_sphere 3 inner plane z /\
  rq_grad (A := A) inner plane diag25 true x = zero 3 /\
  (forall eta, tangent_at 3 inner plane x eta -> 0 <= inner (rq_hess (A := A) inner plane diag25 true x eta) eta) /\
  rq_grad (A := A) inner plane diag25 false z = zero 3 /\
  (forall eta, tangent_at 3 inner plane z eta -> 0 <= inner (rq_hess (A := A) inner plane diag25 false z eta) eta) /\
  eig_values (A := A) inner diag25 x z = (2, 5).
Proof. exact spectrum_example. Qed.
