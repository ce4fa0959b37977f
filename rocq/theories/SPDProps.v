(** Properties of the manifold of symmetric positive definite matrices.  Specification: SPDSpec.v
    and StiefelSpec.v; model: SPDModel.v.  [R] is any real closed field; RealsRcf.v shows that Coq's
    real numbers are one. *)
From Coq Require Import Reals.
From mathcomp Require Import all_ssreflect all_algebra.
From Verif Require Import MxTac RealsRcf StiefelModel StiefelSpec StiefelWitness
  SPDModel SPDSpec SPDProofs SPDFacts.
Import GRing.Theory Num.Theory.
Set Implicit Arguments.
Unset Strict Implicit.
Local Open Scope ring_scope.

(** The distance of the Euclidean metric is a metric: zero exactly on the diagonal, symmetric, with the triangle inequality. *)
Theorem C54_distance_partial (R : rcfType) (n : nat) (a b c : 'M[R]_n) :
  (dist_euc a b = 0 <-> a = b) /\ dist_euc a b = dist_euc b a /\ dist_euc a c <= dist_euc a b + dist_euc b c.
Proof. exact (@spd_distances R n a b c). Qed.
Print Assumptions C54_distance_partial.

(** The distance of the affine-invariant metric from a point to itself is the square root of n, not 0: DistAF leaves out the logarithm. *)
Theorem C54_distance_refuted (R : rcfType) (n : nat) (EIG : 'M[R]_n -> 'M[R]_n * 'rV[R]_n) (x L : 'M[R]_n) : (0 < n)%N -> is_chol x L -> eig_at EIG 1%:M ->
  dist_af EIG L L = Num.sqrt n%:R /\ dist_af EIG L L != 0.
Proof. exact (@spd_distance_wrong R n EIG x L). Qed.
Print Assumptions C54_distance_refuted.
Example C54_distance_refuted_example (R : rcfType) : is_chol (dx R) (dL R) /\ eig_at (fun _ => (1%:M, const_mx 1)) (1%:M : 'M[R]_2).
Proof. by split; [exact: dL_chol|exact: eig_one]. Qed.

(** Parallel translation returns the zero matrix, whatever it is given; it preserves no norm but 0. *)
Theorem C54_parallel_translation_refuted (R : rcfType) (n : nat) (EIG : 'M[R]_n -> 'M[R]_n * 'rV[R]_n) (fexp : R -> R) (x y L eta xi : 'M[R]_n) :
  is_chol x L -> symmetric xi -> xi <> 0 ->
  par_translation EIG fexp L eta xi = 0 /\ 0 < metric_af x xi xi /\
  metric_af y (par_translation EIG fexp L eta xi) (par_translation EIG fexp L eta xi) = 0.
Proof. exact (@spd_translation_wrong R n EIG fexp x y L eta xi). Qed.
Print Assumptions C54_parallel_translation_refuted.
Example C54_parallel_translation_refuted_example (R : rcfType) : is_chol (dx R) (dL R) /\ symmetric (deta R) /\ deta R <> 0.
Proof. by split; [exact: dL_chol|split; [exact: deta_sym|exact: deta_neq0]]. Qed.

(** The metric is the affine-invariant inner product: symmetric, and positive on every nonzero symmetric matrix. *)
Theorem C86_metric (R : rcfType) (n : nat) (x L eta xi : 'M[R]_n) : is_chol x L -> symmetric eta -> symmetric xi ->
  metric_af x eta xi = af x eta xi /\ metric_af x eta xi = metric_af x xi eta /\
  (eta <> 0 -> 0 < metric_af x eta eta).
Proof. exact (@spd_metric R n x L eta xi). Qed.
Print Assumptions C86_metric.
Example C86_metric_example (R : rcfType) : is_chol (dx R) (dL R) /\ symmetric (deta R) /\ deta R <> 0.
Proof. by split; [exact: dL_chol|split; [exact: deta_sym|exact: deta_neq0]]. Qed.

(** The projection of an arbitrary matrix is the nearest symmetric matrix. *)
Theorem C86_projection (R : rcfType) (n : nat) (A : 'M[R]_n) :
  symmetric (spd_projection A) /\ (symmetric A -> spd_projection A = A) /\
  (forall S, symmetric S -> inner (A - spd_projection A) S = 0) /\
  (forall S, symmetric S -> inner (A - spd_projection A) (A - spd_projection A) <= inner (A - S) (A - S)).
Proof. exact (@spd_projection_ok R n A). Qed.
Print Assumptions C86_projection.

(** For a symmetric Euclidean gradient the converted gradient is a symmetric matrix that represents the derivative, under both metrics and also in coordinates. *)
Theorem C87_gradient_partial (R : rcfType) (n : nat) (x L egf xi : 'M[R]_n) : is_chol x L -> symmetric egf -> symmetric xi ->
  (symmetric (grad_af x egf) /\ metric_af x (grad_af x egf) xi = inner egf xi /\
   vdot (intr_af L (grad_af x egf)) (intr_af L xi) = inner egf xi) /\
  (symmetric (grad_euc egf) /\ metric_euc (grad_euc egf) xi = inner egf xi /\
   vdot (intr_euc (grad_euc egf)) (intr_euc xi) = inner egf xi).
Proof. exact (@spd_gradient R n x L egf xi). Qed.
Print Assumptions C87_gradient_partial.

(** For other Euclidean gradients, such as that of the function x -> x12, the result is not symmetric, and its coordinates represent a different derivative. *)
Theorem C87_gradient_refuted (R : rcfType) : exists x L egf xi : 'M[R]_2, is_chol x L /\ symmetric xi /\
  ~ symmetric (grad_af x egf) /\ ~ symmetric (grad_euc egf) /\
  vdot (intr_af L (grad_af x egf)) (intr_af L xi) <> inner egf xi.
Proof. exact (@spd_gradient_wrong R). Qed.
Print Assumptions C87_gradient_refuted.

(** The Hessian is the covariant derivative of the gradient field, and is self-adjoint when the Euclidean Hessian is. *)
Theorem C87_hessian (R : rcfType) (n : nat) (x L G : 'M[R]_n) : is_chol x L -> symmetric G ->
  (forall eta dG, symmetric eta -> symmetric dG ->
     symmetric (hess_af x G eta dG) /\ exists D E F,
     (forall t : R, grad_af (x + t *: eta) (G + t *: dG) = grad_af x G + t *: D + t ^+ 2 *: E + t ^+ 3 *: F) /\
     hess_af x G eta dG = D - (2%:R)^-1 *: (eta *m invmx x *m grad_af x G + grad_af x G *m invmx x *m eta)) /\
  (forall eta xi e f, symmetric eta -> symmetric xi -> symmetric e -> symmetric f -> inner e xi = inner f eta ->
     metric_af x (hess_af x G eta e) xi = metric_af x (hess_af x G xi f) eta).
Proof. exact (@spd_hessian R n x L G). Qed.
Print Assumptions C87_hessian.

(** ObtainIntr and ObtainExtr under the affine-invariant metric are inverse isometries between the symmetric matrices and the coordinate space of dimension n (n + 1) / 2. *)
Theorem C88_coordinates_affine (R : rcfType) (n : nat) (x L : 'M[R]_n) : is_chol x L ->
  (forall eta xi, symmetric eta -> symmetric xi -> vdot (intr_af L eta) (intr_af L xi) = metric_af x eta xi) /\
  (forall eta, size (intr_af L eta) = (n * (n + 1) %/ 2)%N) /\
  (forall u, symmetric (extr_af L u)) /\
  (forall eta, symmetric eta -> extr_af L (intr_af L eta) = eta) /\
  (forall u, size u = (n * (n + 1) %/ 2)%N -> intr_af L (extr_af L u) = u).
Proof. exact (@spd_coordinates R n x L). Qed.
Print Assumptions C88_coordinates_affine.

(** The same under the Euclidean metric. *)
Theorem C88_coordinates_euclidean (R : rcfType) (n : nat) :
  (forall eta xi : 'M[R]_n, symmetric eta -> symmetric xi -> vdot (intr_euc eta) (intr_euc xi) = metric_euc eta xi) /\
  (forall eta : 'M[R]_n, size (intr_euc eta) = (n * (n + 1) %/ 2)%N) /\
  (forall u : seq R, symmetric (extr_euc n u)) /\
  (forall eta : 'M[R]_n, symmetric eta -> extr_euc n (intr_euc eta) = eta) /\
  (forall u : seq R, size u = (n * (n + 1) %/ 2)%N -> intr_euc (extr_euc n u) = u).
Proof. exact (@spd_coordinates_euc R n). Qed.
Print Assumptions C88_coordinates_euclidean.

(** The second-order retraction stays in the manifold for every symmetric direction, however long; it starts at x in the direction eta with the acceleration of the geodesic, and DiffRetraction is its derivative. *)
Theorem C89_second_order_retraction (R : rcfType) (n : nat) (x L eta : 'M[R]_n) : is_chol x L -> symmetric eta ->
  posdef (secord_retr x L eta) /\ secord_retr x L 0 = x /\
  (forall t : R, secord_retr x L (t *: eta) = x + t *: eta + t ^+ 2 *: ((2%:R)^-1 *: (eta *m invmx x *m eta))) /\
  (forall xi, symmetric xi -> symmetric (diff_secord L eta xi) /\
     forall t : R, secord_retr x L (eta + t *: xi) =
       secord_retr x L eta + t *: diff_secord L eta xi + t ^+ 2 *: ((2%:R)^-1 *: (xi *m invmx x *m xi))).
Proof. exact (@spd_second_order R n x L eta). Qed.
Print Assumptions C89_second_order_retraction.
Example C89_second_order_retraction_example (R : rcfType) : is_chol (dx R) (dL R) /\ symmetric (deta R).
Proof. by split; [exact: dL_chol|exact: deta_sym]. Qed.

(** The exponential retraction stays in the manifold, starts at x, is the geodesic whichever eigenvectors LAPACK returns, and has the geodesic's group property. *)
Theorem C90_exponential_retraction (R : rcfType) (n : nat) (EIG : 'M[R]_n -> 'M[R]_n * 'rV[R]_n) (fexp : R -> R) (x L eta : 'M[R]_n) :
  is_chol x L -> symmetric eta -> (forall t : R, eig_at EIG (whiten L (t *: eta))) ->
  (forall a, 0 < fexp a) -> (forall a b, fexp (a + b) = fexp a * fexp b) ->
  (forall t : R, posdef (exp_retr EIG fexp L (t *: eta))) /\
  exp_retr EIG fexp L 0 = x /\
  (forall V lam, is_eig (whiten L eta) V lam -> forall t : R,
     exp_retr EIG fexp L (t *: eta) = L *m (V *m diag_mx (\row_j fexp (t * lam 0 j)) *m V^T) *m L^T) /\
  (forall s t : R, exp_retr EIG fexp L (s *: eta) *m invmx x *m exp_retr EIG fexp L (t *: eta) =
     exp_retr EIG fexp L ((s + t) *: eta)).
Proof. exact (@spd_exponential R n EIG fexp x L eta). Qed.
Print Assumptions C90_exponential_retraction.
Example C90_exponential_retraction_example : is_chol (dx R_rcfType) (dL R_rcfType) /\ symmetric (deta R_rcfType) /\
  (forall t : R_rcfType, eig_at (@deig R_rcfType) (whiten (dL R_rcfType) (t *: deta R_rcfType))) /\
  (forall a : R_rcfType, 0 < (exp a : R_rcfType)) /\ (forall a b : R_rcfType, exp (a + b) = exp a * exp b).
Proof. by split; [exact: dL_chol|split; [exact: deta_sym|split; [exact: deig_ok|split; [exact: exp_positive|exact: exp_additive]]]]. Qed.

(** The transport by parallelization is an isometry between the tangent spaces with the transport in the other direction as its inverse, and agrees with the transport of coordinates. *)
Theorem C91_parallelization_transport (R : rcfType) (n : nat) (x y Lx Ly : 'M[R]_n) : is_chol x Lx -> is_chol y Ly ->
  (forall xi zeta, symmetric xi -> symmetric zeta ->
     symmetric (transport_af Lx Ly xi) /\
     metric_af y (transport_af Lx Ly xi) (transport_af Lx Ly zeta) = metric_af x xi zeta /\
     transport_af Ly Lx (transport_af Lx Ly xi) = xi /\ transport_af Lx Lx xi = xi /\
     transport_euc xi = xi) /\
  (forall u, size u = (n * (n + 1) %/ 2)%N -> transport_af Lx Ly (extr_af Lx u) = extr_af Ly (transport_intr u)).
Proof. exact (@spd_transport R n x y Lx Ly). Qed.
Print Assumptions C91_parallelization_transport.
Example C91_parallelization_transport_example (R : rcfType) : is_chol (dx R) (dL R) /\ is_chol (1%:M : 'M[R]_2) 1%:M.
Proof. by split; [exact: dL_chol|exact: id_chol]. Qed.
