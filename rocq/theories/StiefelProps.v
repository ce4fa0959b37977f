(** Properties of the Stiefel and Grassmann manifolds.  Specification: StiefelSpec.v; model:
    StiefelModel.v.  [R] is any real closed field, n = p + k. *)
From mathcomp Require Import all_ssreflect all_algebra.
From Verif Require Import MxTac StiefelModel StiefelSpec StiefelProofs StiefelRetr StiefelDiff
  StiefelPolar StiefelCayley StiefelIntr StiefelRigid StiefelWitness StiefelFacts.
Import GRing.Theory Num.Theory.
Set Implicit Arguments.
Unset Strict Implicit.
Local Open Scope ring_scope.
Local Notation ext R p k := 'M[R]_(p + k, p).

(** Stiefel: the projection is the orthogonal projection onto the tangent space. *)
Theorem C52_stiefel_projection (R : rcfType) (p k : nat) (x eta : ext R p k) : orthonormal x ->
  tangent x (extr_projection x eta) /\
  (forall v, tangent x v -> extr_projection x v = v) /\
  (forall v, tangent x v -> inner (eta - extr_projection x eta) v = 0) /\
  (forall v, tangent x v ->
     inner (eta - extr_projection x eta) (eta - extr_projection x eta) <= inner (eta - v) (eta - v)) /\
  extr_projection x (extr_projection x eta) = extr_projection x eta.
Proof. exact (@stiefel_projection R p k x eta). Qed.
Print Assumptions C52_stiefel_projection.
Example C52_stiefel_projection_example (R : rcfType) : orthonormal (wx R) /\ tangent (wx R) (wrot R) /\ ~ horizontal (wx R) (wrot R).
Proof. by split; [exact: wx_orth|split; have [? []] := ex_rot R]. Qed.

(** Grassmann: the projection is the orthogonal projection onto the horizontal space. *)
Theorem C52_grassmann_projection (R : rcfType) (p k : nat) (x eta : ext R p k) : orthonormal x ->
  horizontal x (gr_projection x eta) /\
  (forall v, horizontal x v -> gr_projection x v = v) /\
  (forall v, horizontal x v -> inner (eta - gr_projection x eta) v = 0) /\
  (forall v, horizontal x v ->
     inner (eta - gr_projection x eta) (eta - gr_projection x eta) <= inner (eta - v) (eta - v)) /\
  gr_projection x (gr_projection x eta) = gr_projection x eta.
Proof. exact (@grassmann_projection R p k x eta). Qed.
Print Assumptions C52_grassmann_projection.
Example C52_grassmann_projection_example (R : rcfType) : orthonormal (wx R) /\ horizontal (wx R) (weta R).
Proof. by split; [exact: wx_orth|exact: weta_h]. Qed.

(** Under either metric the converted gradient is tangent and represents the Euclidean derivative. *)
Theorem C52_gradients (R : rcfType) (p k : nat) (x g v : ext R p k) : orthonormal x -> tangent x v ->
  (tangent x (grad_euclidean x g) /\ metric_euclidean (grad_euclidean x g) v = inner g v) /\
  (tangent x (grad_canonical x g) /\ metric_canonical x (grad_canonical x g) v = inner g v).
Proof. exact (@gradients R p k x g v). Qed.
Print Assumptions C52_gradients.
(** Stiefel: ObtainIntr and ObtainExtr are inverse isometries between the tangent space and the coordinate space of the manifold's dimension.  The factorisation attached to x is that of x, or that of the matrix from which the qf retraction made x. *)
Theorem C53_stiefel_coordinates (R : rcfType) (p k : nat) (A x : ext R p k) (Q : 'M[R]_(p + k)) (r : 'M[R]_p) : is_hhr A Q r -> (A = x /\ orthonormal x) \/ x = fix_columns r (lsubmx Q) ->
  (forall eta xi, tangent x eta -> tangent x xi ->
     vdot (obtain_intr Q r eta) (obtain_intr Q r xi) = inner eta xi) /\
  (forall eta, size (obtain_intr Q r eta) = ((p + k) * p - p * (p + 1) %/ 2)%N) /\
  (forall u, tangent x (obtain_extr Q r u)) /\
  (forall eta, tangent x eta -> obtain_extr Q r (obtain_intr Q r eta) = eta) /\
  (forall u, size u = ((p + k) * p - p * (p + 1) %/ 2)%N -> obtain_intr Q r (obtain_extr Q r u) = u).
Proof. exact (@coordinates R p k A x Q r). Qed.
Print Assumptions C53_stiefel_coordinates.
Example C53_stiefel_coordinates_example (R : rcfType) : is_hhr (wx R) (wQ R) (wR R) /\ orthonormal (wx R).
Proof. by split; [exact: ex_hhr|exact: wx_orth]. Qed.

(** Grassmann: the same for horizontal vectors. *)
Theorem C53_grassmann_coordinates (R : rcfType) (p k : nat) (A x : ext R p k) (Q : 'M[R]_(p + k)) (r : 'M[R]_p) : is_hhr A Q r -> (A = x /\ orthonormal x) \/ x = fix_columns r (lsubmx Q) ->
  (forall eta xi, horizontal x eta -> horizontal x xi -> vdot (gr_intr Q eta) (gr_intr Q xi) = inner eta xi) /\
  (forall eta, size (gr_intr Q eta) = (p * k)%N) /\
  (forall u, horizontal x (gr_extr Q u)) /\
  (forall eta, horizontal x eta -> gr_extr Q (gr_intr Q eta) = eta) /\
  (forall u, size u = (p * k)%N -> gr_intr Q (gr_extr Q u) = u).
Proof. exact (@gr_coordinates R p k A x Q r). Qed.
Print Assumptions C53_grassmann_coordinates.
(** Stiefel: the same for normal vectors. *)
Theorem C53_normal_coordinates (R : rcfType) (p k : nat) (x : ext R p k) : orthonormal x ->
  (forall eta xi, normal x eta -> normal x xi -> vdot (normal_intr x eta) (normal_intr x xi) = inner eta xi) /\
  (forall eta, size (normal_intr x eta) = (p * (p + 1) %/ 2)%N) /\
  (forall u, normal x (normal_extr x u)) /\
  (forall eta, normal x eta -> normal_extr x (normal_intr x eta) = eta) /\
  (forall u, size u = (p * (p + 1) %/ 2)%N -> normal_intr x (normal_extr x u) = u).
Proof. exact (@normal_coordinates R p k x). Qed.
Print Assumptions C53_normal_coordinates.
(** C58, what holds: with the Euclidean metric the conversion is the tangential part of the
    derivative of the gradient along eta (the gradient extended by its formula, the Euclidean
    gradient varying by dG along eta), and it is self-adjoint whenever the Euclidean Hessian is.
    Missing: the canonical metric's conversion, refuted below. *)
Theorem C58_hessian_conversion_partial (R : rcfType) (p k : nat) (x eta xi G dG dG' : ext R p k) :
  orthonormal x ->
  (exists D E F, (forall t, grad_euclidean (x + t *: eta) (G + t *: dG) =
       grad_euclidean x G + t *: D + t ^+ 2 *: E + t ^+ 3 *: F) /\
     hess_euclidean x eta dG G = extr_projection x D) /\
  (tangent x eta -> tangent x xi -> inner dG xi = inner eta dG' ->
     inner (hess_euclidean x eta dG G) xi = inner eta (hess_euclidean x xi dG' G)).
Proof. exact (@hess_all R p k x eta xi G dG dG'). Qed.
Print Assumptions C58_hessian_conversion_partial.
(** With n = 2 and p = 1 the two metrics agree on tangent vectors, the two conversions do not. *)
Theorem C58_hessian_conversion_refuted (R : rcfType) : exists x eta dG G : ext R 1 1,
  orthonormal x /\ tangent x eta /\
  (forall v w, tangent x v -> metric_canonical x v w = metric_euclidean v w) /\
  hess_canonical x eta dG G <> hess_euclidean x eta dG G.
Proof. exact (hess_refuted R). Qed.
Print Assumptions C58_hessian_conversion_refuted.
(** Grassmann: the conversion is the horizontal part of the derivative of the gradient, and it is
    self-adjoint whenever the Euclidean Hessian is and x^T G is symmetric, as it is for functions of
    the subspace. *)
Theorem C58_grassmann_hessian (R : rcfType) (p k : nat) (x eta xi G dG dG' : ext R p k) :
  orthonormal x ->
  (exists D E F, (forall t, gr_projection (x + t *: eta) (G + t *: dG) =
       gr_projection x G + t *: D + t ^+ 2 *: E + t ^+ 3 *: F) /\
     gr_hess x eta dG G = gr_projection x D) /\
  (horizontal x eta -> horizontal x xi -> symmetric (x^T *m G) -> inner dG xi = inner eta dG' ->
     inner (gr_hess x eta dG G) xi = inner eta (gr_hess x xi dG' G)).
Proof. exact (@gr_hess_all R p k x eta xi G dG dG'). Qed.
Print Assumptions C58_grassmann_hessian.

(** The qf retraction gives the Q factor of x + eta whose R has a positive diagonal: a point of the manifold; it maps 0 to x, and follows x + t eta to second order. *)
Theorem C77_qf_retraction (R : rcfType) (p k : nat) (QR : ext R p k -> ext R p k * 'M[R]_p) (x eta : ext R p k) :
  orthonormal x -> tangent x eta -> (forall t, qr_at QR (x + t *: eta)) ->
  (exists r, is_qr (x + eta) (qf_retraction QR x eta) r /\ forall i, 0 < r i i) /\
  orthonormal (qf_retraction QR x eta) /\
  qf_retraction QR x 0 = x /\
  second_order (fun t => qf_retraction QR x (t *: eta)) (fun t => x + t *: eta).
Proof. exact (@qf_all R p k QR x eta). Qed.
Print Assumptions C77_qf_retraction.
Example C77_qf_retraction_example (R : rcfType) : orthonormal (hx R) /\ tangent (hx R) (he R) /\ (forall t, qr_at (@qr1 R (1 + 1)) (hx R + t *: he R)) /\
  orthonormal (wx R) /\ tangent (wx R) (weta R) /\ qr_at (fun _ => (wy R, wr R)) (wx R + weta R).
Proof. by have [? []] := ex_h R; do 2 split=> //; split; [move=> t; have [] := ex_all t|split; [exact: wx_orth|split; [exact: ex_tangent|exact: ex_qr]]]. Qed.

(** The polar retraction: x + eta is its value times a positive definite matrix; the same three facts. *)
Theorem C77_polar_retraction (R : rcfType) (p k : nat) (SVD : ext R p k -> ext R p k * 'rV[R]_p * 'M[R]_p) (x eta : ext R p k) :
  orthonormal x -> tangent x eta -> (forall t, svd_at SVD (x + t *: eta)) ->
  (exists P, posdef P /\ x + eta = polar_retraction SVD x eta *m P) /\
  orthonormal (polar_retraction SVD x eta) /\
  polar_retraction SVD x 0 = x /\
  second_order (fun t => polar_retraction SVD x (t *: eta)) (fun t => x + t *: eta).
Proof. exact (@polar_all R p k SVD x eta). Qed.
Print Assumptions C77_polar_retraction.
Example C77_polar_retraction_example (R : rcfType) : orthonormal (hx R) /\ tangent (hx R) (he R) /\ (forall t, svd_at (@svd1 R (1 + 1)) (hx R + t *: he R)).
Proof. by have [? []] := ex_h R; do 2 split=> //; move=> t; have [] := ex_all t. Qed.

(** The Cayley retraction: the linear system it solves is regular, and the same three facts. *)
Theorem C77_cayley_retraction (R : rcfType) (p k : nat) (x eta : ext R p k) :
  orthonormal x -> tangent x eta -> LUP x eta \in unitmx /\ orthonormal (cayley_retraction x eta) /\ cayley_retraction x 0 = x /\
  second_order (fun t => cayley_retraction x (t *: eta)) (fun t => x + t *: eta).
Proof. exact (@cayley_all R p k x eta). Qed.
Print Assumptions C77_cayley_retraction.
Example C77_cayley_retraction_example (R : rcfType) : orthonormal (wx R) /\ tangent (wx R) (wrot R) /\ wrot R <> 0.
Proof. by split; [exact: wx_orth|have [? [_ /eqP]] := ex_rot R]. Qed.

(** The polar retraction is the point of the manifold nearest to x + eta. *)
Theorem C78_polar_retraction_nearest (R : rcfType) (p k : nat) (SVD : ext R p k -> ext R p k * 'rV[R]_p * 'M[R]_p)
  (x eta z : ext R p k) : svd_at SVD (x + eta) -> orthonormal z ->
  inner (x + eta - polar_retraction SVD x eta) (x + eta - polar_retraction SVD x eta) <=
  inner (x + eta - z) (x + eta - z).
Proof. exact (@polar_nearest R p k SVD x eta z). Qed.
Print Assumptions C78_polar_retraction_nearest.

(** The derivative of the qf retraction at eta along xi: the only tangent vector at the new point that solves the linearised equation d R + Y s = xi with s upper triangular. *)
Theorem C79_diff_qf_retraction (R : rcfType) (p k : nat) (QR : ext R p k -> ext R p k * 'M[R]_p) (x eta xi : ext R p k) : qr_at QR (x + eta) -> orthonormal x -> tangent x eta ->
  exists rp,
  is_qr (x + eta) (qf_retraction QR x eta) rp /\ (forall i, 0 < rp i i) /\
  (exists s, upper s /\ tangent (qf_retraction QR x eta) (diff_qf (QR (x + eta)).2 (qf_retraction QR x eta) xi) /\
     diff_qf (QR (x + eta)).2 (qf_retraction QR x eta) xi *m rp + qf_retraction QR x eta *m s = xi) /\
  (forall d s, upper s -> tangent (qf_retraction QR x eta) d -> d *m rp + qf_retraction QR x eta *m s = xi ->
     d = diff_qf (QR (x + eta)).2 (qf_retraction QR x eta) xi).
Proof. exact (@diff_qf_all R p k QR x eta xi). Qed.
Print Assumptions C79_diff_qf_retraction.
Example C79_diff_qf_retraction_example (R : rcfType) : orthonormal (wx R) /\ tangent (wx R) (weta R) /\ qr_at (fun _ => (wy R, wr R)) (wx R + weta R).
Proof. by split; [exact: wx_orth|split; [exact: ex_tangent|exact: ex_qr]]. Qed.

(** The derivative of the polar retraction along c eta: the only tangent vector that solves the linearised equation d P + Y s = c eta with s symmetric.  The code handles only this direction. *)
Theorem C79_diff_polar_retraction (R : rcfType) (p k : nat) (SVD : ext R p k -> ext R p k * 'rV[R]_p * 'M[R]_p) (x eta : ext R p k) (c : R) : svd_at SVD (x + eta) -> orthonormal x -> tangent x eta -> eta != 0 -> 0 <= c ->
  exists P,
  posdef P /\ x + eta = polar_retraction SVD x eta *m P /\
  (exists s, symmetric s /\
     tangent (polar_retraction SVD x eta)
       (diff_polar (SVD (x + eta)).1.2 (SVD (x + eta)).2 (norm_ratio eta (c *: eta)) (polar_retraction SVD x eta) eta) /\
     diff_polar (SVD (x + eta)).1.2 (SVD (x + eta)).2 (norm_ratio eta (c *: eta)) (polar_retraction SVD x eta) eta *m P
       + polar_retraction SVD x eta *m s = c *: eta) /\
  (forall d s, symmetric s -> tangent (polar_retraction SVD x eta) d ->
     d *m P + polar_retraction SVD x eta *m s = c *: eta ->
     d = diff_polar (SVD (x + eta)).1.2 (SVD (x + eta)).2 (norm_ratio eta (c *: eta)) (polar_retraction SVD x eta) eta).
Proof. exact (@diff_polar_all R p k SVD x eta c). Qed.
Print Assumptions C79_diff_polar_retraction.
(** The derivative of the Cayley retraction along c eta. *)
Theorem C79_diff_cayley_retraction (R : rcfType) (p k : nat) (x eta : ext R p k) (c : R) : orthonormal x -> tangent x eta -> eta != 0 -> 0 <= c ->
  second_order (fun t => cayley_retraction x (eta + t *: (c *: eta)))
    (fun t => cayley_retraction x eta + t *: diff_cayley (norm_ratio eta (c *: eta)) x eta).
Proof. exact (@diff_cayley_all R p k x eta c). Qed.
Print Assumptions C79_diff_cayley_retraction.
Example C79_diff_cayley_retraction_example (R : rcfType) : orthonormal (wx R) /\ tangent (wx R) (wrot R) /\ wrot R != 0.
Proof. by split; [exact: wx_orth|have [? [_ ?]] := ex_rot R]. Qed.

(** The cotangent vector is the adjoint of the derivative of the retraction. *)
Theorem C80_qf_cotangent (R : rcfType) (p k : nat) (r : 'M[R]_p) (x y v xi : ext R p k) :
  orthonormal x -> tangent x v -> tangent y xi ->
  inner xi (diff_qf r y v) = inner (cotangent_qf r x y xi) v.
Proof. exact (@cotangent_adjoint R p k r x y v xi). Qed.
Print Assumptions C80_qf_cotangent.
Theorem C80_grassmann_cotangent (R : rcfType) (p k : nat) (r : 'M[R]_p) (x y v xi : ext R p k) :
  horizontal x v -> horizontal y xi ->
  inner xi (diff_qf r y v) = inner (gr_cotangent r x y xi) v.
Proof. exact (@gr_cotangent_adjoint R p k r x y v xi). Qed.
Print Assumptions C80_grassmann_cotangent.

(** The Cayley transport preserves both metrics, maps tangent vectors at x to tangent vectors at the new point, and its inverse undoes it, both ways. *)
Theorem C81_cayley_transport (R : rcfType) (p k : nat) (x eta : ext R p k) : orthonormal x -> tangent x eta ->
  (forall v w, inner (cayley_transport x eta v) (cayley_transport x eta w) = inner v w) /\
  (forall v w, metric_canonical (cayley_retraction x eta) (cayley_transport x eta v) (cayley_transport x eta w) =
     metric_canonical x v w) /\
  (forall v, tangent x v -> tangent (cayley_retraction x eta) (cayley_transport x eta v)) /\
  (forall v, cayley_inverse_transport x eta (cayley_transport x eta v) = v) /\
  (forall w, cayley_transport x eta (cayley_inverse_transport x eta w) = w) /\
  (forall w, tangent (cayley_retraction x eta) w -> tangent x (cayley_inverse_transport x eta w)).
Proof. exact (@transport_all R p k x eta). Qed.
Print Assumptions C81_cayley_transport.
(** The inverse of the polar retraction undoes it. *)
Theorem C82_inverse_polar (R : rcfType) (p k : nat) (SVD : ext R p k -> ext R p k * 'rV[R]_p * 'M[R]_p) (SYL : 'M[R]_p -> 'M[R]_p -> 'M[R]_p -> 'M[R]_p) (x eta : ext R p k) : svd_at SVD (x + eta) -> orthonormal x -> tangent x eta ->
  sylvester_at SYL (x^T *m polar_retraction SVD x eta) (x^T *m polar_retraction SVD x eta)^T (2%:R *: 1%:M) ->
  inv_polar SYL x (polar_retraction SVD x eta) = eta.
Proof. exact (@inv_polar_all R p k SVD SYL x eta). Qed.
Print Assumptions C82_inverse_polar.
Example C82_inverse_polar_example (R : rcfType) : sylvester_at (@syl1 R)
  ((hx R)^T *m polar_retraction (p := 1) (k := 1) (@svd1 R (1 + 1)) (hx R) (he R))
  ((hx R)^T *m polar_retraction (p := 1) (k := 1) (@svd1 R (1 + 1)) (hx R) (he R))^T (2%:R *: 1%:M).
Proof. exact (ex_syl R). Qed.

(** ... and where the solution of its equation is positive definite, it is undone by the retraction. *)
Theorem C82_inverse_polar_right (R : rcfType) (p k : nat) (SVD : ext R p k -> ext R p k * 'rV[R]_p * 'M[R]_p) (SYL : 'M[R]_p -> 'M[R]_p -> 'M[R]_p -> 'M[R]_p) (x y : ext R p k) : svd_at SVD (x + inv_polar SYL x y) -> orthonormal x -> orthonormal y ->
  posdef (SYL (x^T *m y) (x^T *m y)^T (2%:R *: 1%:M)) ->
  sylvester_at SYL (x^T *m y) (x^T *m y)^T (2%:R *: 1%:M) ->
  tangent x (inv_polar SYL x y) /\ polar_retraction SVD x (inv_polar SYL x y) = y.
Proof. exact (@inv_polar_all2 R p k SVD SYL x y). Qed.
Print Assumptions C82_inverse_polar_right.
(** Grassmann: the vector that DiffRetraction hands out in intrinsic coordinates represents the horizontal part of the derivative.  Missing: the extrinsic representation, refuted below. *)
Theorem C83_grassmann_derivative_partial (R : rcfType) (p k : nat) (A : ext R p k) (Q : 'M[R]_(p + k)) (r : 'M[R]_p) (eta : ext R p k) : is_hhr A Q r ->
  horizontal (fix_columns r (lsubmx Q)) (gr_extr Q (gr_intr Q (diff_qf r (fix_columns r (lsubmx Q)) eta))) /\
  gr_extr Q (gr_intr Q (diff_qf r (fix_columns r (lsubmx Q)) eta)) =
    gr_projection (fix_columns r (lsubmx Q)) (diff_qf r (fix_columns r (lsubmx Q)) eta).
Proof. exact (@gr_diff_round R p k A Q r eta). Qed.
Print Assumptions C83_grassmann_derivative_partial.
Example C83_grassmann_derivative_example (R : rcfType) : is_hhr (wx R) (wQ R) (wR R).
Proof. exact (ex_hhr R). Qed.

Theorem C83_grassmann_derivative_refuted (R : rcfType) : exists (x eta y : ext R 2 1) (r : 'M[R]_2),
  orthonormal x /\ horizontal x eta /\ is_qr (x + eta) y r /\ (forall i, 0 < r i i) /\
  ~ horizontal y (diff_qf r y eta).
Proof. exact (gr_diff_refuted R). Qed.
Print Assumptions C83_grassmann_derivative_refuted.
