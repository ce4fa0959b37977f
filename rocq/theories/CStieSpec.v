(** What the theorems about complex matrices and the complex Stiefel manifold speak of.
    [R] is a real closed field, [R[i]] its complex numbers. *)
From mathcomp Require Import all_ssreflect all_algebra.
From mathcomp.real_closed Require Import complex.
Import GRing.Theory Num.Theory.
Set Implicit Arguments.
Unset Strict Implicit.
Local Open Scope ring_scope.
Local Open Scope complex_scope.

Section spec.
Variable R : rcfType.
(** The conjugate transpose. *)
Definition adj m n (A : 'M[R[i]]_(m, n)) : 'M[R[i]]_(n, m) := \matrix_(i, j) conjc (A j i).
(** A real multiple. *)
Definition rscale m n (a : R) (A : 'M[R[i]]_(m, n)) : 'M[R[i]]_(m, n) := a%:C *: A.
(** The real inner product: the real part of tr(A^H B). *)
Definition cinner m n (A B : 'M[R[i]]_(m, n)) : R := complex.Re (\tr (adj A *m B)).
Definition hermitian n (A : 'M[R[i]]_n) := adj A = A.
Definition skew_hermitian n (A : 'M[R[i]]_n) := adj A = - A.
Definition cupper n (A : 'M[R[i]]_n) := forall i j : 'I_n, (j < i)%N -> A i j = 0.
(** Real entries on the diagonal. *)
Definition real_diag n (A : 'M[R[i]]_n) := forall i : 'I_n, complex.Im (A i i) = 0.
(** A point of the complex Stiefel manifold. *)
Definition unitary m n (X : 'M[R[i]]_(m, n)) := adj X *m X = 1%:M.
Definition cposdef n (A : 'M[R[i]]_n) :=
  hermitian A /\ forall v : 'cV[R[i]]_n, v != 0 -> 0 < complex.Re ((adj v *m A *m v) 0 0).
(** Its tangent space and its normal space at x. *)
Definition ctangent m n (x v : 'M[R[i]]_(m, n)) := skew_hermitian (adj x *m v).
Definition cnormal m n (x v : 'M[R[i]]_(m, n)) := exists S : 'M[R[i]]_n, hermitian S /\ v = x *m S.

(** Decompositions, as LAPACK documents them: zgeqp3 gives R a real diagonal, zgesdd real singular
    values. *)
Record is_cqr m n (A Q : 'M[R[i]]_(m, n)) (r : 'M[R[i]]_n) : Prop :=
  { cqr_product : A = Q *m r; cqr_unitary : unitary Q; cqr_upper : cupper r; cqr_real : real_diag r }.
Definition rdiag n (S : 'rV[R]_n) : 'M[R[i]]_n := diag_mx (\row_j (S 0 j)%:C).
Record is_csvd m n (A U : 'M[R[i]]_(m, n)) (S : 'rV[R]_n) (Vt : 'M[R[i]]_n) : Prop :=
  { csvd_product : A = U *m rdiag S *m Vt; csvd_left : unitary U;
    csvd_right : unitary (adj Vt); csvd_nonneg : forall i, 0 <= S 0 i }.
Record is_chhr p k (A : 'M[R[i]]_(p + k, p)) (Q : 'M[R[i]]_(p + k)) (r : 'M[R[i]]_p) : Prop :=
  { chhr_unitary : unitary Q; chhr_form : adj Q *m A = col_mx r 0; chhr_upper : cupper r; chhr_real : real_diag r }.
(** A routine returns a decomposition of the matrix it is called with. *)
Definition cqr_at m n (QR : 'M[R[i]]_(m, n) -> 'M[R[i]]_(m, n) * 'M[R[i]]_n) A := is_cqr A (QR A).1 (QR A).2.
Definition csvd_at m n (SVD : 'M[R[i]]_(m, n) -> 'M[R[i]]_(m, n) * 'rV[R]_n * 'M[R[i]]_n) A :=
  is_csvd A (SVD A).1.1 (SVD A).1.2 (SVD A).2.
(** Two curves agree to second order at t = 0: the squared distance is at most a constant times t^4. *)
Definition csecond_order m n (X Y : R -> 'M[R[i]]_(m, n)) :=
  exists C : R, forall t : R, cinner (X t - Y t) (X t - Y t) <= C * t ^+ 4.
End spec.
