(** What the theorems about symmetric positive semidefinite matrices of fixed rank speak of;
    [inner], [symmetric], [skew], [orthonormal], [is_svd], [is_qr], [is_hhr] and [vdot] are those of
    StiefelSpec.v, [is_eig] that of SPDSpec.v. *)
From mathcomp Require Import all_ssreflect all_algebra.
From Verif Require Import StiefelSpec SPDSpec SymFRModel.
Import GRing.Theory Num.Theory.
Set Implicit Arguments.
Unset Strict Implicit.
Local Open Scope ring_scope.

Section spec.
Variable R : rcfType.
(** The columns are linearly independent: a point of the manifold. *)
Definition full_rank m n (x : 'M[R]_(m, n)) := forall v : 'cV[R]_n, x *m v = 0 -> v = 0.
(** Positive semidefinite. *)
Definition psd n (A : 'M[R]_n) := symmetric A /\ forall v : 'cV[R]_n, 0 <= (v^T *m A *m v) 0 0.
(** The represented matrix, and its derivative in the direction of eta. *)
Definition gram m n (x : 'M[R]_(m, n)) := x *m x^T.
Definition lift m n (x eta : 'M[R]_(m, n)) := eta *m x^T + x *m eta^T.
(** The directions in which the represented matrix does not change: those of the orbit of x under
    orthogonal matrices. *)
Definition vertical m n (x v : 'M[R]_(m, n)) := exists W : 'M[R]_n, skew W /\ v = x *m W.
(** The inner products of the header file. *)
Definition g_of (s : sf_metric) m n (x eta xi : 'M[R]_(m, n)) : R :=
  match s with
  | SF_EUC => 2%:R * \tr (x^T *m eta *m x^T *m xi + x^T *m x *m eta^T *m xi)
  | SF_HGZ => \tr (x^T *m x *m eta^T *m xi)
  | SF_QEUC => \tr (eta^T *m xi)
  end.
(** Orthogonal to the vertical vectors; the metric EUC vanishes on them, and the library takes
    the same complement as for HGZ. *)
Definition horizontal (s : sf_metric) m n (x eta : 'M[R]_(m, n)) :=
  forall v, vertical x v -> g_of (match s with SF_QEUC => SF_QEUC | _ => SF_HGZ end) x v eta = 0.
(** The derivative of a function of the represented matrix: it vanishes on the orbit. *)
Definition invariant_at m n (x g : 'M[R]_(m, n)) := forall v, vertical x v -> inner g v = 0.
(** The derivative of the metric HGZ with respect to the point, in the direction of z. *)
Definition dg_hgz m n (x z eta xi : 'M[R]_(m, n)) : R := \tr ((z^T *m x + x^T *m z) *m eta^T *m xi).
(** A matrix normal to the set of matrices of rank p at x x^T. *)
Definition normal_at m n (x : 'M[R]_(m, n)) (A : 'M[R]_m) := forall th, inner A (lift x th) = 0.
(** An eigenvalue decomposition with the eigenvalues in ascending order, as syev_ returns it. *)
Definition eig_asc n (EIG : 'M[R]_n -> 'M[R]_n * 'rV[R]_n) S :=
  is_eig S (EIG S).1 (EIG S).2 /\ forall i j : 'I_n, (i <= j)%N -> (EIG S).2 0 i <= (EIG S).2 0 j.
(** X and Y have the same value and derivative at t = 0. *)
Definition first_order m n (X Y : R -> 'M[R]_(m, n)) := forall e, 0 < e -> exists2 b, 0 < b &
  forall t, `|t| < b -> inner (X t - Y t) (X t - Y t) <= e * t ^+ 2.
(** LAPACK's routines return the decompositions that their documentation promises. *)
Definition routines p k (QR : 'M[R]_(p + k, p + p) -> 'M[R]_(p + k, p + p) * 'M[R]_(p + p))
  (EIG : 'M[R]_(p + p) -> 'M[R]_(p + p) * 'rV[R]_(p + p)) (SVD : 'M[R]_p -> 'M[R]_p * 'rV[R]_p * 'M[R]_p) :=
  (forall A, qr_at QR A) /\ (forall S, symmetric S -> eig_asc EIG S) /\ (forall A, svd_at SVD A).
(** A routine that solves Sylvester equations with positive definite coefficients. *)
Definition solves_sylvester n (SYL : 'M[R]_n -> 'M[R]_n -> 'M[R]_n -> 'M[R]_n) :=
  forall A B C, posdef A -> posdef B -> sylvester_at SYL A B C.
End spec.
(** The names of the metrics, SymFixedRankQ.h 36. *)
From Coq Require Import String.
Definition metric_name (s : sf_metric) : string :=
  match s with SF_EUC => "SFRANKQEUC" | SF_HGZ => "SFRANKQHGZ" | SF_QEUC => "SFRANKQQEUC" end%string.
