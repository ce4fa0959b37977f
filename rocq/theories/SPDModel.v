(** Model of the manifold of symmetric positive definite matrices, Manifolds/SPDManifold.cpp.

    Exact arithmetic over a real closed field, as in StiefelModel.v.  [L] is the field _L of a point,
    its Cholesky factor (CholDecom, Element.cpp 810-859); what LAPACK's potrf_ and syev_ return is
    an argument, of which the theorems assume what LAPACK documents (SPDSpec.v). *)
From mathcomp Require Import all_ssreflect all_algebra.
From Verif Require Import StiefelModel.
Import GRing.Theory Num.Theory.
Set Implicit Arguments.
Unset Strict Implicit.
Local Open Scope ring_scope.

Section model.
Variable R : rcfType.
Variable n : nat.
Local Notation ext := 'M[R]_n.

(** TriangleLinSol, Element.cpp 861-895, with trans = N and trans = T. *)
Definition tri_sol (L B : ext) : ext := invmx L *m B.
Definition tri_solT (L B : ext) : ext := invmx L^T *m B.

(** Metric 58-71, extrinsic: x % eta solves with x (Element.cpp 442-487), / x solves with x from
    the right (391-440). *)
Definition metric_euc (eta xi : ext) : R := dot eta xi.
Definition metric_af (x eta xi : ext) : R :=
  let tmp := (invmx x *m eta) *m invmx x in
  dot tmp xi.

(** ExtrProjection 93-108. *)
Definition spd_projection (eta : ext) : ext :=
  \matrix_(i, j) (if i == j then eta i i
    else if (i < j)%N then (eta i j + eta j i) * half R
    else (eta j i + eta i j) * half R).

(** EucGradToGradAF 340-356, EucHvToHvAF 358-363 ([G] is the field EGrad), EucGradToGradEuc
    450-464, EucHvToHvEuc 466-470. *)
Definition grad_af (x egf : ext) : ext :=
  let tmp := gemm0 1 x^T egf in
  gemm0 1 tmp x.
Definition hess_af (x G eta exix : ext) : ext :=
  let tmp := (x *m G) *m eta in
  (x *m exix) *m x + (2%:R)^-1 *: (tmp + tmp^T).
Definition grad_euc (egf : ext) : ext := egf.
Definition hess_euc (exix : ext) : ext := exix.

(** L^{-1} eta L^{-T}: 374-375, 207-208, 502-503. *)
Definition whiten (L eta : ext) : ext :=
  let LiE := tri_sol L eta in
  tri_sol L LiE^T.
(** The loops 381-393 and 527-541: diagonal entries, then the entries below the diagonal in the
    order of [upper_pairs] times the square root of 2. *)
Definition pack (S : ext) : seq R :=
  [seq S i i | i <- enum 'I_n] ++
  [seq S ij.2 ij.1 * Num.sqrt 2%:R | ij <- upper_pairs n].
(** The loops 409-423 and 553-566; idx counts the steps. *)
Definition unpack (v : seq R) : ext :=
  let r2 := Num.sqrt 2%:R in
  \matrix_(a, b) (if a == b then nth 0 v (index a (enum 'I_n))
    else if (b < a)%N then nth 0 v (size (enum 'I_n) + index (b, a) (upper_pairs n)) / r2
    else nth 0 v (size (enum 'I_n) + index (a, b) (upper_pairs n)) / r2).
(** ObtainIntrAF 365-395, ObtainExtrAF 397-429, ObtainIntrEuc 522-543, ObtainExtrEuc 545-568. *)
Definition intr_af (L eta : ext) : seq R := pack (whiten L eta).
Definition extr_af (L : ext) (v : seq R) : ext :=
  let tmp := gemm0 1 L (unpack v) in
  gemm0 1 tmp L^T.
Definition intr_euc (eta : ext) : seq R := pack eta.
Definition extr_euc (v : seq R) : ext := unpack v.

(** EigenDecomSym, Element.cpp 897-963 (syev_): eigenvectors and eigenvalues. *)
Variable EIG : ext -> ext * 'rV[R]_n.
(** ExpSym, Element.cpp 965-1006: column i of the eigenvectors times exp of eigenvalue i. *)
Definition exp_sym (fexp : R -> R) (S : ext) : ext :=
  let: (V, lam) := EIG S in
  (\matrix_(i, j) (fexp (lam 0 j) * V i j)) *m V^T.
(** DistAF 431-448, Fnorm Element.cpp 2488-2494, DistEuc 570-573. *)
Definition dist_af (L1 L2 : ext) : R :=
  let tmp := tri_sol L1 L2 in
  let tmp2 := gemm0 1 tmp tmp^T in
  let EigVals := (EIG tmp2).2 in
  Num.sqrt (dot EigVals EigVals).
Definition dist_euc (x1 x2 : ext) : R := Num.sqrt (dot (x1 - x2) (x1 - x2)).

(** ExpRetraction 194-229, extrinsic; the loop 213-221 averages the two triangles. *)
Definition average (A : ext) : ext :=
  \matrix_(i, j) (if i == j then A i i else if (i < j)%N then (A i j + A j i) / 2%:R else (A j i + A i j) / 2%:R).
Definition exp_retr (fexp : R -> R) (L eta : ext) : ext :=
  let LiELiT := whiten L eta in
  let tmp := gemm0 1 L (exp_sym fexp LiELiT) in
  average (gemm0 1 tmp L^T).

(** SecOrdRetraction 237-261, extrinsic. *)
Definition secord_retr (x L eta : ext) : ext :=
  let LiE := tri_sol L eta in
  let result := gemm0 (half R) LiE^T LiE in
  let result := 1 *: eta + result in
  1 *: x + result.
(** DiffSecOrdRetraction 263-303, extrinsic; the loop 287-294 averages the two triangles. *)
Definition diff_secord (L eta xi : ext) : ext :=
  let LiE := tri_sol L eta in
  let LiX := tri_sol L xi in
  let exresult := gemm0 1 LiE^T LiX in
  let exresult := spd_projection exresult in
  1 *: xi + exresult.

(** ParallelTranslation 484-509, extrinsic.  The product of line 506 has the factor 0. *)
Definition par_translation (fexp : R -> R) (L eta xi : ext) : ext :=
  let LiELiThalf := half R *: whiten L eta in
  let tmp := L *m (tri_solT L (exp_sym fexp LiELiThalf))^T in
  let LiE := gemm0 0 tmp xi in
  gemm0 1 LiE tmp^T.
(** VectorTransportParallelization 511-520: intrinsic and extrinsic; [Lx] and [Ly] are the factors
    of x and y.  (Euclidean metric: ObtainIntrEuc and ObtainExtrEuc.) *)
Definition transport_intr (xi : seq R) : seq R := xi.
Definition transport_af (Lx Ly xi : ext) : ext := extr_af Ly (intr_af Lx xi).
Definition transport_euc (xi : ext) : ext := extr_euc (intr_euc xi).
End model.
