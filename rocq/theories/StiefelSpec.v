(** What the theorems about the Stiefel and Grassmann manifolds speak of. *)
From mathcomp Require Import all_ssreflect all_algebra.
Import GRing.Theory Num.Theory.
Set Implicit Arguments.
Unset Strict Implicit.
Local Open Scope ring_scope.

Section spec.
Variable R : rcfType.
(** The Euclidean inner product of two matrices. *)
Definition inner m n (A B : 'M[R]_(m, n)) : R := \tr (A^T *m B).
Definition symmetric n (A : 'M[R]_n) := A^T = A.
Definition skew n (A : 'M[R]_n) := A^T = - A.
Definition upper n (A : 'M[R]_n) := forall i j : 'I_n, (j < i)%N -> A i j = 0.
(** Orthonormal columns: a point of the Stiefel manifold. *)
Definition orthonormal m n (X : 'M[R]_(m, n)) := X^T *m X = 1%:M.
Definition posdef n (A : 'M[R]_n) := symmetric A /\ forall v : 'cV[R]_n, v != 0 -> 0 < (v^T *m A *m v) 0 0.
(** The tangent space of the Stiefel manifold at x, and the horizontal space of Grassmann. *)
Definition tangent m n (x v : 'M[R]_(m, n)) := skew (x^T *m v).
Definition horizontal m n (x v : 'M[R]_(m, n)) := x^T *m v = 0.

(** The normal space of the Stiefel manifold at x. *)
Definition normal m n (x v : 'M[R]_(m, n)) := exists S : 'M[R]_n, symmetric S /\ v = x *m S.

(** Decompositions, as LAPACK documents them. *)
Record is_qr m n (A Q : 'M[R]_(m, n)) (r : 'M[R]_n) : Prop :=
  { qr_product : A = Q *m r; qr_orthonormal : orthonormal Q; qr_upper : upper r }.
Record is_svd m n (A U : 'M[R]_(m, n)) (S : 'rV[R]_n) (Vt : 'M[R]_n) : Prop :=
  { svd_product : A = U *m diag_mx S *m Vt; svd_left : orthonormal U;
    svd_right : orthonormal Vt^T; svd_nonneg : forall i, 0 <= S 0 i }.
(** Householder QR: an orthogonal matrix that brings A to upper triangular form. *)
Record is_hhr p k (A : 'M[R]_(p + k, p)) (Q : 'M[R]_(p + k)) (r : 'M[R]_p) : Prop :=
  { hhr_orthogonal : orthonormal Q; hhr_form : Q^T *m A = col_mx r 0; hhr_upper : upper r }.
(** A routine returns a decomposition of the matrix it is called with. *)
Definition qr_at m n (QR : 'M[R]_(m, n) -> 'M[R]_(m, n) * 'M[R]_n) A := is_qr A (QR A).1 (QR A).2.
Definition svd_at m n (SVD : 'M[R]_(m, n) -> 'M[R]_(m, n) * 'rV[R]_n * 'M[R]_n) A :=
  is_svd A (SVD A).1.1 (SVD A).1.2 (SVD A).2.
(** A routine returns a solution of the Sylvester equation A X + X B = C it is called with. *)
Definition sylvester_at n (SYL : 'M[R]_n -> 'M[R]_n -> 'M[R]_n -> 'M[R]_n) A B C :=
  A *m SYL A B C + SYL A B C *m B = C.
(** Y is a second-order approximation of the curve X at t = 0: the squared distance is at most a
    constant times t^4. *)
Definition second_order m n (X Y : R -> 'M[R]_(m, n)) :=
  exists C : R, forall t : R, inner (X t - Y t) (X t - Y t) <= C * t ^+ 4.
(** The dot product of coordinate lists of the same length. *)
Definition vdot (u v : seq R) : R := \sum_(i < size u) nth 0 u i * nth 0 v i.
End spec.
