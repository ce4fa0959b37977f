(** Model of the Karcher mean of symmetric positive definite matrices, Problems/SPDKarcherMean.cpp.

    Exact arithmetic over a real closed field; [LN] stands for std::log, [CHOL] and [EIG] for what LAPACK
    computes in CholDecom and EigenDecomSym.  The data Ls are a list of matrices.  The fields that f
    leaves on x (the Cholesky factor, the logarithms and their decompositions) are those of the last
    call of f at x, which is how the solvers call EucGrad and EucHessianEta. *)
From mathcomp Require Import all_ssreflect all_algebra.
From Verif Require Import StiefelModel.
Import GRing.Theory Num.Theory.
Set Implicit Arguments.
Unset Strict Implicit.
Local Open Scope ring_scope.

Section model.
Variables (R : rcfType) (n : nat).
Variables (LN : R -> R) (CHOL : 'M[R]_n -> 'M[R]_n) (EIG : 'M[R]_n -> 'M[R]_n * 'rV[R]_n).
Local Notation ext := 'M[R]_n.

(** Element::TriangleLinSol, Manifolds/Element.cpp 861-895: trtrs_ reads the lower triangle of L only.  A
    zero on the diagonal makes it fail, which the theorems exclude. *)
Definition lower_part (L : ext) : ext := \matrix_(i, j) (if (i < j)%N then 0 else L i j).
Definition tri_sol (B L : ext) : ext := invmx (lower_part L) *m B.
Definition tri_solT (B L : ext) : ext := invmx (lower_part L)^T *m B.

(** Element::LogSym, Element.cpp 1009-1035: a matrix with an eigenvalue that is not positive is returned
    as it is. *)
Definition log_sym (A : ext) : ext :=
  let (V, lam) := EIG A in
  if [forall i, 0 < lam 0 i] then (\matrix_(i, j) (V i j * LN (lam 0 j))) *m V^T else A.

(** f 19-47: the Cholesky factor of the symmetrised x (21-29), and for each sample the matrix tmp2. *)
Definition factor (x : ext) : ext := CHOL (2%:R^-1 *: (x + x^T)).
Definition whitened (x L : ext) : ext :=
  let tmp1 := tri_sol (factor x) L in
  gemm0 1 tmp1 tmp1^T.
(** With no samples the quotient 0 / 0 is not a number: [None]. *)
Definition f (Ls : seq ext) (x : ext) : option R :=
  if size Ls == 0%N then None else
  let logs := [seq log_sym (whitened x L) | L <- Ls] in
  Some ((\sum_(S <- logs) dot S S) / (2%:R * (size Ls)%:R)).

(** EucGrad 49-63. *)
Definition egrad (Ls : seq ext) (x : ext) : ext :=
  let result := \sum_(L <- Ls) tri_solT (gemm0 1 (log_sym (whitened x L)) L^T) L in
  let result := (tri_solT (tri_sol result^T (factor x)) (factor x))^T in
  (1 / (size Ls)%:R) *: result.

(** EucHessianEta 65-95; [EGrad] is the field of that name. *)
Definition divided (a b : R) : R := if a == b then 1 / a else (LN a - LN b) / (a - b).
Definition ehess_term (x eta L : ext) : ext :=
  let tmp := (tri_sol eta^T L)^T in
  let Dir := tri_sol tmp L in
  let (U, Lambda) := EIG (whitened x L) in
  let tmp := gemm0 1 U^T Dir in
  let H := gemm0 1 tmp U in
  let Z : ext := \matrix_(j, k) divided (Lambda 0 j) (Lambda 0 k) in
  let tmp := gemm0 1 (\matrix_(j, k) (H j k * Z j k)) U^T in
  let tmp2 := gemm0 1 U tmp in
  gemm0 1 (tri_solT tmp2 L) L^T.
Definition ehess (Ls : seq ext) (x EGrad eta : ext) : ext :=
  let result := \sum_(L <- Ls) ehess_term x eta L in
  ((size Ls)%:R^-1 *: result - EGrad *m eta) *m invmx x.
End model.
