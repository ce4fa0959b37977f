(** Properties of the complex Stiefel manifold and of the Brockett problem on it.  Specification:
    CStieSpec.v; model: CStieModel.v.  [R] is any real closed field, [R[i]] its complex numbers,
    n = p + k. *)
From mathcomp Require Import all_ssreflect all_algebra.
From mathcomp.real_closed Require Import complex.
From Verif Require Import MxTac StiefelModel StiefelSpec CStieSpec CStieModel CStieFacts CStieWitness.
Import GRing.Theory Num.Theory.
Set Implicit Arguments.
Unset Strict Implicit.
Local Open Scope ring_scope.
Local Notation ext R p k := 'M[R[i]]_(p + k, p).

(** C139.  The projection is the orthogonal projection onto the tangent space: what it removes is
    normal; it does not lengthen vectors. *)
Theorem C139_complex_projection (R : rcfType) (p k : nat) (x eta : ext R p k) : unitary x ->
  ctangent x (cprojection x eta) /\
  (forall v, ctangent x v -> cprojection x v = v) /\
  (forall v, ctangent x v -> cinner (eta - cprojection x eta) v = 0) /\
  cnormal x (eta - cprojection x eta) /\
  (forall v, ctangent x v ->
     cinner (eta - cprojection x eta) (eta - cprojection x eta) <= cinner (eta - v) (eta - v)) /\
  cinner (ctransport_projection x eta) (ctransport_projection x eta) <= cinner eta eta.
Proof. exact (@cprojection_all R p k x eta). Qed.
Print Assumptions C139_complex_projection.
(** Under either metric the converted gradient is tangent and represents the derivative. *)
Theorem C139_complex_gradients (R : rcfType) (p k : nat) (x g v : ext R p k) : unitary x -> ctangent x v ->
  (ctangent x (cgrad_euclidean x g) /\ cmetric_euclidean (cgrad_euclidean x g) v = cinner g v) /\
  (ctangent x (cgrad_canonical x g) /\ cmetric_canonical x (cgrad_canonical x g) v = cinner g v).
Proof. exact (@cgradients_all R p k x g v). Qed.
Print Assumptions C139_complex_gradients.
Example C139_example (R : rcfType) : unitary (ux R) /\ ctangent (ux R) (ue R) /\ ue R != 0.
Proof. exact (conj (ux_unitary R) (conj (ue_tangent R) (ue_neq0 R))). Qed.

(** C140.  The Hessian conversion is the tangential part of the derivative of the gradient and keeps
    self-adjointness. *)
Theorem C140_complex_hessian (R : rcfType) (p k : nat) (x eta xi G dG dG' : ext R p k) : unitary x ->
  (exists D E F, (forall t : R, cgrad_euclidean (x + rscale t eta) (G + rscale t dG) =
       cgrad_euclidean x G + rscale t D + rscale (t ^+ 2) E + rscale (t ^+ 3) F) /\
     chess_euclidean x eta dG G = cprojection x D) /\
  (ctangent x eta -> ctangent x xi -> cinner dG xi = cinner eta dG' ->
     cinner (chess_euclidean x eta dG G) xi = cinner eta (chess_euclidean x xi dG' G)).
Proof. exact (@chess_all R p k x eta xi G dG dG'). Qed.
Print Assumptions C140_complex_hessian.
Example C140_example (R : rcfType) : unitary (ux R) /\ ctangent (ux R) (ue R) /\ ue R != 0.
Proof. exact (conj (ux_unitary R) (conj (ue_tangent R) (ue_neq0 R))). Qed.

(** C141.  The qf retraction gives the only Q factor of x + eta whose R has a positive diagonal; it
    is a point of the manifold; it maps 0 to x and follows x + t eta to second order. *)
Theorem C141_complex_qf_retraction (R : rcfType) (p k : nat) (QR : ext R p k -> ext R p k * 'M[R[i]]_p) (x eta : ext R p k) :
  unitary x -> ctangent x eta -> (forall t : R, cqr_at QR (x + rscale t eta)) ->
  (exists r, is_cqr (x + eta) (cqf_retraction QR x eta) r /\ forall i, 0 < complex.Re (r i i)) /\
  (forall Q r, is_cqr (x + eta) Q r -> (forall i, 0 < complex.Re (r i i)) -> Q = cqf_retraction QR x eta) /\
  unitary (cqf_retraction QR x eta) /\
  cqf_retraction QR x 0 = x /\
  csecond_order (fun t => cqf_retraction QR x (rscale t eta)) (fun t => x + rscale t eta).
Proof. exact (@cqf_all R p k QR x eta). Qed.
Print Assumptions C141_complex_qf_retraction.
(** The polar retraction gives the only unitary factor of x + eta with a positive definite one, the
    point of the manifold nearest to x + eta. *)
Theorem C141_complex_polar_retraction (R : rcfType) (p k : nat) (SVD : ext R p k -> ext R p k * 'rV[R]_p * 'M[R[i]]_p) (x eta : ext R p k) :
  unitary x -> ctangent x eta -> (forall t : R, csvd_at SVD (x + rscale t eta)) ->
  (exists P, cposdef P /\ x + eta = cpolar_retraction SVD x eta *m P) /\
  (forall Y P, unitary Y -> cposdef P -> x + eta = Y *m P -> Y = cpolar_retraction SVD x eta) /\
  (forall z, unitary z ->
     cinner (x + eta - cpolar_retraction SVD x eta) (x + eta - cpolar_retraction SVD x eta) <=
     cinner (x + eta - z) (x + eta - z)) /\
  unitary (cpolar_retraction SVD x eta) /\
  cpolar_retraction SVD x 0 = x /\
  csecond_order (fun t => cpolar_retraction SVD x (rscale t eta)) (fun t => x + rscale t eta).
Proof. exact (@cpolar_all R p k SVD x eta). Qed.
Print Assumptions C141_complex_polar_retraction.
Example C141_example (R : rcfType) : unitary (ux R) /\ ctangent (ux R) (ue R) /\
  (forall t : R, cqr_at (@cqr1 R (1 + 1)) (ux R + rscale t (ue R)) /\ csvd_at (@csvd1 R (1 + 1)) (ux R + rscale t (ue R))).
Proof. exact (conj (ux_unitary R) (conj (ue_tangent R) (@ue_all R))). Qed.

(** C142.  The derivative of the qf retraction at eta along xi is the only tangent vector d at the
    new point that solves d R + Y s = xi with s upper triangular with a real diagonal. *)
Theorem C142_complex_diff_qf (R : rcfType) (p k : nat) (QR : ext R p k -> ext R p k * 'M[R[i]]_p) (x eta xi : ext R p k) :
  cqr_at QR (x + eta) -> unitary x -> ctangent x eta ->
  exists rp,
  is_cqr (x + eta) (cqf_retraction QR x eta) rp /\ (forall i, 0 < complex.Re (rp i i)) /\
  (exists s, cupper s /\ real_diag s /\
     ctangent (cqf_retraction QR x eta) (cdiff_qf (QR (x + eta)).2 (cqf_retraction QR x eta) xi) /\
     cdiff_qf (QR (x + eta)).2 (cqf_retraction QR x eta) xi *m rp + cqf_retraction QR x eta *m s = xi) /\
  (forall d s, cupper s -> real_diag s -> ctangent (cqf_retraction QR x eta) d ->
     d *m rp + cqf_retraction QR x eta *m s = xi ->
     d = cdiff_qf (QR (x + eta)).2 (cqf_retraction QR x eta) xi).
Proof. exact (@cdiff_qf_all R p k QR x eta xi). Qed.
Print Assumptions C142_complex_diff_qf.
(** The derivative of the polar retraction along c eta, the only direction the code handles. *)
Theorem C142_complex_diff_polar (R : rcfType) (p k : nat) (SVD : ext R p k -> ext R p k * 'rV[R]_p * 'M[R[i]]_p) (x eta : ext R p k) (c : R) :
  csvd_at SVD (x + eta) -> unitary x -> ctangent x eta -> eta != 0 -> 0 <= c ->
  exists P,
  cposdef P /\ x + eta = cpolar_retraction SVD x eta *m P /\
  (exists s, hermitian s /\
     ctangent (cpolar_retraction SVD x eta)
       (cdiff_polar (SVD (x + eta)).1.2 (SVD (x + eta)).2 (cnorm_ratio eta (rscale c eta)) (cpolar_retraction SVD x eta) eta) /\
     cdiff_polar (SVD (x + eta)).1.2 (SVD (x + eta)).2 (cnorm_ratio eta (rscale c eta)) (cpolar_retraction SVD x eta) eta *m P
       + cpolar_retraction SVD x eta *m s = rscale c eta) /\
  (forall d s, hermitian s -> ctangent (cpolar_retraction SVD x eta) d ->
     d *m P + cpolar_retraction SVD x eta *m s = rscale c eta ->
     d = cdiff_polar (SVD (x + eta)).1.2 (SVD (x + eta)).2 (cnorm_ratio eta (rscale c eta)) (cpolar_retraction SVD x eta) eta).
Proof. exact (@cdiff_polar_all R p k SVD x eta c). Qed.
Print Assumptions C142_complex_diff_polar.
Example C142_example (R : rcfType) : unitary (ux R) /\ ctangent (ux R) (ue R) /\ ue R != 0 /\
  (forall t : R, cqr_at (@cqr1 R (1 + 1)) (ux R + rscale t (ue R)) /\ csvd_at (@csvd1 R (1 + 1)) (ux R + rscale t (ue R))).
Proof. exact (conj (ux_unitary R) (conj (ue_tangent R) (conj (ue_neq0 R) (@ue_all R)))). Qed.

(** C143.  ObtainIntr and ObtainExtr are inverse isometries between the tangent space and the real
    coordinate vectors of length 2 n p - p^2.  The factorisation attached to x is that of x, or that
    of the matrix from which the qf retraction made x. *)
Theorem C143_complex_coordinates (R : rcfType) (p k : nat) (A x : ext R p k) (Q : 'M[R[i]]_(p + k)) (r : 'M[R[i]]_p) :
  is_chhr A Q r -> (A = x /\ unitary x) \/ x = cfix_columns r (lsubmx Q) ->
  (forall eta xi, ctangent x eta -> ctangent x xi ->
     vdot (cobtain_intr Q r eta) (cobtain_intr Q r xi) = cinner eta xi) /\
  (forall eta, size (cobtain_intr Q r eta) = (2 * (p + k) * p - p * p)%N) /\
  (forall u, ctangent x (cobtain_extr Q r u)) /\
  (forall eta, ctangent x eta -> cobtain_extr Q r (cobtain_intr Q r eta) = eta) /\
  (forall u, size u = (2 * (p + k) * p - p * p)%N -> cobtain_intr Q r (cobtain_extr Q r u) = u).
Proof. exact (@ccoordinates_all R p k A x Q r). Qed.
Print Assumptions C143_complex_coordinates.
(** The transport by parallelization, which keeps the coordinates, maps tangent vectors at x to
    tangent vectors at y isometrically, and the same transport from y to x undoes it. *)
Theorem C143_complex_parallelization (R : rcfType) (p k : nat) (A x : ext R p k) (Q : 'M[R[i]]_(p + k)) (r : 'M[R[i]]_p)
  (A' y : ext R p k) (Q' : 'M[R[i]]_(p + k)) (r' : 'M[R[i]]_p) :
  is_chhr A Q r -> (A = x /\ unitary x) \/ x = cfix_columns r (lsubmx Q) ->
  is_chhr A' Q' r' -> (A' = y /\ unitary y) \/ y = cfix_columns r' (lsubmx Q') ->
  (forall v, ctangent y (cobtain_extr Q' r' (cobtain_intr Q r v))) /\
  (forall v w, ctangent x v -> ctangent x w ->
     cinner (cobtain_extr Q' r' (cobtain_intr Q r v)) (cobtain_extr Q' r' (cobtain_intr Q r w)) = cinner v w) /\
  (forall v, ctangent x v -> cobtain_extr Q r (cobtain_intr Q' r' (cobtain_extr Q' r' (cobtain_intr Q r v))) = v).
Proof. exact (@cparallelization R p k A x Q r A' y Q' r'). Qed.
Print Assumptions C143_complex_parallelization.
Example C143_example (R : rcfType) : is_chhr (ux R) (uQ R) (ur R) /\ unitary (ux R) /\ ctangent (ux R) (ue R).
Proof. exact (conj (ux_hhr R) (conj (ux_unitary R) (ue_tangent R))). Qed.

(** C144, what holds: the coordinates of normal vectors are p^2 real numbers with the metric of the
    manifold, and reading the coordinates of what ObtainNorVerExtr builds gives them back.  Missing:
    ObtainNorVerExtr returns a normal vector exactly when the memory it does not write happens to be
    zero; refuted below. *)
Theorem C144_complex_normal_coordinates_partial (R : rcfType) (p k : nat) (junk : 'I_p -> R) (x : ext R p k) : unitary x ->
  (forall eta xi, cnormal x eta -> cnormal x xi -> vdot (cnormal_intr x eta) (cnormal_intr x xi) = cinner eta xi) /\
  (forall eta, size (cnormal_intr x eta) = (p * p)%N) /\
  (forall u, size u = (p * p)%N -> cnormal_intr x (cnormal_extr junk x u) = u) /\
  (forall u, cnormal x (cnormal_extr junk x u) <-> forall i, junk i = 0) /\
  (forall eta, cnormal x eta -> (forall i, junk i = 0) -> cnormal_extr junk x (cnormal_intr x eta) = eta).
Proof. exact (@cnormal_all R p k junk x). Qed.
Print Assumptions C144_complex_normal_coordinates_partial.
Theorem C144_complex_normal_coordinates_refuted (R : rcfType) : exists (junk : 'I_1 -> R) (x : ext R 1 1), unitary x /\
  ~ cnormal x (cnormal_extr junk x [:: 0]) /\ cnormal_extr junk x (cnormal_intr x 0) <> 0.
Proof. exact (cnormal_refuted R). Qed.
Print Assumptions C144_complex_normal_coordinates_refuted.
Example C144_example (R : rcfType) : unitary (ux R).
Proof. exact (ux_unitary R). Qed.

(** C145, what holds: every other function of the class performs only products whose assertions hold
    and whose result fits the storage it is written to, whatever n and p.  Missing: the Hessian
    conversion for the canonical metric and the inverse of the polar retraction, which write a
    complex p by p product into a real p by p matrix. *)
Theorem C145_complex_storage_partial (f : fn) (n p : nat) : f <> FHessCanonical -> f <> FInvPolar ->
  run (statements f n p) = Fine.
Proof. exact (@statements_fine f n p). Qed.
Print Assumptions C145_complex_storage_partial.
Theorem C145_complex_storage_refuted (f : fn) (n p : nat) : (0 < p)%N -> f = FHessCanonical \/ f = FInvPolar ->
  run (statements f n p) = Overruns.
Proof. exact (@statements_overrun f n p). Qed.
Print Assumptions C145_complex_storage_refuted.
Example C145_example : FProjection <> FHessCanonical /\ FProjection <> FInvPolar.
Proof. by []. Qed.

(** C146.  The Brockett function with a Hermitian B and a real diagonal D: along every line it is the
    quadratic polynomial whose slope is the gradient; the gradient is affine with slope the Hessian,
    which is self-adjoint. *)
Theorem C146_complex_brockett (R : rcfType) (p k : nat) (B : 'M[R[i]]_(p + k)) (D : 'rV[R[i]]_p) (x eta : ext R p k) :
  hermitian B -> (forall i, complex.Im (D 0 i) = 0) ->
  cbrockett_f B D x = complex.Re (\tr (adj x *m B *m x *m diag_mx D)) /\
  (forall t : R, cbrockett_f B D (x + rscale t eta) =
     cbrockett_f B D x + t * cinner (cbrockett_grad B D x) eta + t ^+ 2 * cinner (B *m eta *m diag_mx D) eta) /\
  (forall t : R, cbrockett_grad B D (x + rscale t eta) = cbrockett_grad B D x + rscale t (cbrockett_hess B D eta)) /\
  (forall xi, cinner (cbrockett_hess B D eta) xi = cinner eta (cbrockett_hess B D xi)).
Proof. exact (@cbrockett_all R p k B D x eta). Qed.
Print Assumptions C146_complex_brockett.
Example C146_example (R : rcfType) : hermitian (uB R) /\ uB R != 0.
Proof. exact (uB_hermitian R). Qed.
