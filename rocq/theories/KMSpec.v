(** What the theorems about the Karcher mean speak of; [inner], [orthonormal], [symmetric] and [posdef]
    are those of StiefelSpec.v, [is_chol] and [is_eig] those of SPDSpec.v. *)
From mathcomp Require Import all_ssreflect all_algebra.
From Verif Require Import StiefelSpec SPDSpec.
Import GRing.Theory Num.Theory.
Set Implicit Arguments.
Unset Strict Implicit.
Local Open Scope ring_scope.

Section spec.
Variables (R : rcfType) (n : nat).
Implicit Types (X A L : 'M[R]_n).
(** The routines of LAPACK. *)
Definition chol_right (CHOL : 'M[R]_n -> 'M[R]_n) := forall A, posdef A -> is_chol A (CHOL A).
Definition eig_right (EIG : 'M[R]_n -> 'M[R]_n * 'rV[R]_n) := forall A, symmetric A -> is_eig A (EIG A).1 (EIG A).2.
(** A sample L stands for the matrix L L^T: it is lower triangular with a diagonal without zeros. *)
Definition sample L := (forall i j : 'I_n, (i < j)%N -> L i j = 0) /\ forall i, L i i != 0.
(** The square of the affine-invariant distance of X and A, from any simultaneous diagonalisation: the sum of
    the squared logarithms of the eigenvalues of A^-1 X. *)
Definition is_dist2 (LN : R -> R) X A (d : R) := forall (W : 'M[R]_n) (lam : 'rV[R]_n),
  W^T *m A *m W = 1%:M -> W^T *m X *m W = diag_mx lam -> d = \sum_i LN (lam 0 i) ^+ 2.
(** The Frobenius norm, and the symmetric part. *)
Definition nrm m (A : 'M[R]_(m, n)) : R := Num.sqrt (inner A A).
Definition sympart A : 'M[R]_n := 2%:R^-1 *: (A + A^T).
End spec.
