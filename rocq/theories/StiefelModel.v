(** Model of the Stiefel manifold's geometry, Manifolds/Stiefel.cpp, and of Grassmann's,
    Manifolds/Grassmann.cpp.

    Exact arithmetic: a real closed field.  An element with n rows and p columns is a matrix;
    n = p + k.  What LAPACK computes (QR, Householder QR, SVD, a Sylvester equation) is an
    argument, of which the theorems assume what LAPACK documents (StiefelSpec.v).  trsm_ and
    getrf_/getrs_ solve a linear system, here by [invmx]; the theorems assume or prove that the
    matrix is invertible.  The cached fields (_HHR, _tau, _Vt, _S, Mk2, Mk3, LUP, U) are arguments
    too: what is attached to an element is the subject of FieldsModel.v. *)
From mathcomp Require Import all_ssreflect all_algebra.
Import GRing.Theory Num.Theory.
Set Implicit Arguments.
Unset Strict Implicit.
Local Open Scope ring_scope.

Section model.
Variable R : rcfType.

(** Element::DotProduct, Element.cpp 1751-1762. *)
Definition dot m n (A B : 'M[R]_(m, n)) : R := \sum_i \sum_j A i j * B i j.
(** AlphaABaddBetaThis, Element.cpp 1675-1715, with the transposition done by the caller, and the
    same with beta = 0, where the old value is not used. *)
Definition gemm m n q (alpha : R) (A : 'M[R]_(m, n)) (B : 'M[R]_(n, q)) (beta : R) (C : 'M[R]_(m, q)) :=
  alpha *: (A *m B) + beta *: C.
Definition gemm0 m n q (alpha : R) (A : 'M[R]_(m, n)) (B : 'M[R]_(n, q)) : 'M[R]_(m, q) := alpha *: (A *m B).
Definition half : R := 2%:R^-1.

Variables p k : nat.
Local Notation n := (p + k)%N.
Local Notation ext := 'M[R]_(p + k, p).

(** Stiefel::Metric 88-101, extrinsic. *)
Definition metric_euclidean (eta xi : ext) : R := dot eta xi.
Definition metric_canonical (x eta xi : ext) : R :=
  let tmp1 := gemm0 1 eta^T x in
  let tmp2 := gemm0 1 xi^T x in
  dot eta xi - half * dot tmp1 tmp2.

(** Stiefel::ExtrProjection 125-132. *)
Definition extr_projection (x eta : ext) : ext :=
  let tmp := gemm0 1 x^T eta in
  let tmp := half *: (tmp + tmp^T) in
  gemm (-1) x tmp 1 eta.

(** Stiefel::EucGradToGrad 315-337; Euclidean metric and canonical metric. *)
Definition grad_euclidean (x egf : ext) : ext := extr_projection x egf.
Definition grad_canonical (x egf : ext) : ext :=
  let tmp := gemm0 1 egf^T x in
  gemm (-1) x tmp 1 egf.

(** Stiefel::EucHvToHv 339-370; [G] is the field EGrad. *)
Definition hess_euclidean (x eta exix G : ext) : ext :=
  let tmp := gemm0 1 x^T G in
  let tmp := half *: (tmp + tmp^T) in
  let result := gemm (-1) eta tmp 1 exix in
  extr_projection x result.
Definition hess_canonical (x eta exix G : ext) : ext :=
  let tmp := gemm0 1 G^T eta in
  let tmp2 := gemm0 1 x^T G in
  let tmp3 := gemm0 1 exix^T x in
  let result := gemm (-1) x tmp3 1 exix in
  let tmp3 := half *: (tmp - tmp^T) in
  let result := gemm (-1) x tmp3 1 result in
  let tmp3 := gemm0 1 G^T x in
  let result := gemm (-1) eta tmp3 1 result in
  let tmp3 := gemm0 half eta^T x in
  let result := gemm (-1) G tmp3 1 result in
  let result := gemm (- half) eta tmp2 1 result in
  let tmp := gemm0 1 tmp3^T tmp2 in
  gemm 1 x tmp 1 result.

(** scal_(&n, &GLOBAL::DNONE, ptr + i * n, &GLOBAL::IONE) for each i with Rptr[i + i * p] < 0:
    column i is negated (454-460, 490-494, 522-526). *)
Definition fix_columns m (r : 'M[R]_p) (Q : 'M[R]_(m, p)) : 'M[R]_(m, p) :=
  \matrix_(a, i) (if r i i < 0 then - Q a i else Q a i).
(** scal_(&p, &GLOBAL::DNONE, ptr + i, &n): row i is negated (654-658, 715-719). *)
Definition fix_rows m (r : 'M[R]_p) (A : 'M[R]_(p, m)) : 'M[R]_(p, m) :=
  \matrix_(i, a) (if r i i < 0 then - A i a else A i a).

(** qfRetraction 440-466, extrinsic: Q and the R factor of x + eta. *)
Definition qf_retraction (QR : ext -> ext * 'M[R]_p) (x eta : ext) : ext :=
  let (Q, r) := QR (x + eta) in fix_columns r Q.

(** The loop 530-538. *)
Definition diff_upper (M : 'M[R]_p) : 'M[R]_p :=
  \matrix_(i, j) (if i == j then - M i i else if (i < j)%N then - M j i - M i j else 0).
(** DiffqfRetraction 508-562, extrinsic: [r] is the upper triangle of the
    field _HHR of y. *)
Definition diff_qf (r : 'M[R]_p) (y xi : ext) : ext :=
  let exxix := xi *m invmx r in
  let exxix := fix_columns r exxix in
  let YtVRinv := gemm0 1 y^T exxix in
  gemm 1 y (diff_upper YtVRinv) 1 exxix.

(** The loop 478-484. *)
Definition negate_upper (W : 'M[R]_p) : 'M[R]_p :=
  \matrix_(i, j) (if (i <= j)%N then - W i j else W i j).
(** qfcoTangentVector 468-506, extrinsic. *)
Definition cotangent_qf (r : 'M[R]_p) (x y xi : ext) : ext :=
  let ytxiy := gemm0 1 y^T xi in
  let exresult := gemm 1 y (negate_upper ytxiy) 1 xi in
  let exresult := fix_columns r exresult in
  let exresult := exresult *m invmx r^T in
  extr_projection x exresult.

(** PolarRetraction 564-579, extrinsic. *)
Definition polar_retraction (SVD : ext -> ext * 'rV[R]_p * 'M[R]_p) (x eta : ext) : ext :=
  let: (U, _, Vt) := SVD (eta + x) in U *m Vt.
(** InvPolarRetraction 581-590: SYL A B C solves A X + X B = C (Element.cpp 1427-1504). *)
Definition inv_polar (SYL : 'M[R]_p -> 'M[R]_p -> 'M[R]_p -> 'M[R]_p) (x y : ext) : ext :=
  let A := gemm0 1 x^T y in
  let soln := SYL A A^T (2%:R *: 1%:M) in
  gemm 1 y soln (-1) x.
(** sqrt(Metric(x, xix, xix) / Metric(x, etax, etax)), 607 and 860, Euclidean metric. *)
Definition norm_ratio (eta xi : ext) : R := Num.sqrt (metric_euclidean xi xi / metric_euclidean eta eta).
(** DiffPolarRetraction 598-642 for eta and xi of the same direction, [alpha] the quotient of
    their norms. *)
Definition diff_polar (S : 'rV[R]_p) (Vt : 'M[R]_p) (alpha : R) (y eta : ext) : ext :=
  let tmp := gemm0 1 eta Vt^T in
  let S := \row_i (1 / S 0 i) in
  let tmp := (tmp *m diag_mx S) *m Vt in
  let tmp2 := gemm0 1 tmp^T tmp in
  gemm (- alpha) y tmp2 alpha tmp.

(** CayleyRetraction 725-808, extrinsic.  (The code uses etax itself also in the intrinsic
    approach, see DESIGN.md.) *)
Definition Mk211 (x eta : ext) : 'M[R]_p := gemm0 half x^T eta.
Definition Mk221 (x eta : ext) : 'M[R]_p :=
  gemm (-1) eta^T eta 1 (gemm0 3%:R (Mk211 x eta)^T (Mk211 x eta)).
Definition Mk222 (x eta : ext) : 'M[R]_p := \matrix_(i, j) - Mk211 x eta j i.
Definition Mk2 (x eta : ext) : 'M[R]_(p + p) :=
  block_mx (Mk211 x eta) 1%:M (Mk221 x eta) (Mk222 x eta).
(** Mk1ptr = Mk2ptr + P2 * p: the last p columns. *)
Definition Mk1 (x eta : ext) : 'M[R]_(p + p, p) := rsubmx (Mk2 x eta).
(** The matrix that getrf_ factors, 766-778. *)
Definition LUP (x eta : ext) : 'M[R]_(p + p) := 1%:M - half *: Mk2 x eta.
Definition Mk3 (x eta : ext) : 'M[R]_(p + p, p) := invmx (LUP x eta) *m Mk1 x eta.
Definition cayU (x eta : ext) : 'M[R]_(p + k, p + p) := row_mx (gemm (-1) x (Mk211 x eta) 1 eta) x.
Definition cayley_retraction (x eta : ext) : ext := gemm 1 (cayU x eta) (Mk3 x eta) 1 x.
(** V of CayleyVectorTransport 894-899 and CayleyInverseVectorTransport 935-940. *)
Definition cayV (x eta : ext) : 'M[R]_(p + k, p + p) :=
  row_mx (rsubmx (cayU x eta)) (- lsubmx (cayU x eta)).
(** DiffCayleyRetraction 816-881 for eta and xi of the same direction. *)
Definition diff_cayley (alpha : R) (x eta : ext) : ext :=
  let Mk2Mk3 := Mk2 x eta *m Mk3 x eta in
  let tmp := Mk1 x eta + half *: Mk2Mk3 in
  let Mk2Mk3 := invmx (LUP x eta) *m Mk2Mk3 in
  let tmp := tmp + half *: Mk2Mk3 in
  alpha *: (cayU x eta *m tmp).
(** CayleyVectorTransport 883-922. *)
Definition cayley_transport (x eta xi : ext) : ext :=
  let Vtxix := invmx (LUP x eta) *m ((cayV x eta)^T *m xi) in
  gemm 1 (cayU x eta) Vtxix 1 xi.
(** CayleyInverseVectorTransport 924-963: getrs_ with GLOBAL::T. *)
Definition cayley_inverse_transport (x eta xi : ext) : ext :=
  let Utxiy := invmx (LUP x eta)^T *m ((cayU x eta)^T *m xi) in
  gemm 1 (cayV x eta) Utxiy 1 xi.

(** The index pairs in the order of the loops 664-671 and 694-703. *)
Definition upper_pairs : seq ('I_p * 'I_p) :=
  flatten [seq [seq (i, j) | j <- filter (fun j : 'I_p => (i < j)%N) (enum 'I_p)] | i : 'I_p <- enum 'I_p].
(** ... and 673-680 and 705-712: column i, row p + j. *)
Definition lower_pairs : seq ('I_p * 'I_k) := flatten [seq [seq (i, j) | j <- enum 'I_k] | i <- enum 'I_p].

(** ObtainIntrHHR 644-682: [Q] is the product of the Householder reflectors in the field _HHR of x
    (HHRMtp, Element.cpp 1225-1269), [r] its upper triangle. *)
Definition obtain_intr (Q : 'M[R]_(p + k)) (r : 'M[R]_p) (eta : ext) : seq R :=
  let tmp := Q^T *m eta in
  let top := fix_rows r (usubmx tmp) in
  [seq Num.sqrt 2%:R * (top ij.2 ij.1 - top ij.1 ij.2) / 2%:R | ij <- upper_pairs] ++
  [seq dsubmx tmp ij.2 ij.1 | ij <- lower_pairs].
(** ObtainExtrHHR 684-723: idx counts the steps of the loops. *)
Definition obtain_extr (Q : 'M[R]_(p + k)) (r : 'M[R]_p) (v : seq R) : ext :=
  let r2 := Num.sqrt 2%:R in
  let top := \matrix_(a, b) (if a == b then 0
    else if (b < a)%N then nth 0 v (index (b, a) upper_pairs) / r2
    else - (nth 0 v (index (a, b) upper_pairs) / r2)) in
  let bottom := \matrix_(j, i) nth 0 v (size upper_pairs + index (i, j) lower_pairs) in
  Q *m col_mx (fix_rows r top) bottom.

(** ObtainNorVerIntr 390-413, ObtainNorVerExtr 415-438. *)
Definition normal_intr (x eta : ext) : seq R :=
  let xTetax := gemm0 1 x^T eta in
  [seq xTetax i i | i <- enum 'I_p] ++
  [seq (xTetax ij.1 ij.2 + xTetax ij.2 ij.1) / Num.sqrt 2%:R | ij <- upper_pairs].
Definition normal_extr (x : ext) (v : seq R) : ext :=
  let r2 := Num.sqrt 2%:R in
  let S := \matrix_(a, b) (if a == b then nth 0 v (index a (enum 'I_p))
    else if (a < b)%N then nth 0 v (size (enum 'I_p) + index (a, b) upper_pairs) / r2
    else nth 0 v (size (enum 'I_p) + index (b, a) upper_pairs) / r2) in
  gemm0 1 x S.

(** ** Grassmann *)
(** ExtrProjection 42-49. *)
Definition gr_projection (x eta : ext) : ext :=
  let xTetax := gemm0 1 x^T eta in
  gemm (-1) x xTetax 1 eta.
(** Retraction 51-77 is qf_retraction; DiffRetraction 79-133 is diff_qf; coTangentVector 135-173: *)
Definition gr_cotangent (r : 'M[R]_p) (x y xi : ext) : ext :=
  let ytxiy := gemm0 1 y^T xi in
  let exresult := gemm 1 y (negate_upper ytxiy) 1 xi in
  let exresult := fix_columns r exresult in
  let exresult := exresult *m invmx r^T in
  gr_projection x exresult.
(** EucHvToHv 204-210. *)
Definition gr_hess (x eta exix G : ext) : ext :=
  let tmp := gemm0 1 x^T G in
  let result := gemm (-1) eta tmp 1 exix in
  gr_projection x result.
(** ObtainIntr 212-230, ObtainExtr 232-257. *)
Definition gr_intr (Q : 'M[R]_(p + k)) (eta : ext) : seq R :=
  [seq dsubmx (Q^T *m eta) ij.2 ij.1 | ij <- lower_pairs].
Definition gr_extr (Q : 'M[R]_(p + k)) (v : seq R) : ext :=
  Q *m col_mx 0 (\matrix_(j, i) nth 0 v (index (i, j) lower_pairs)).
End model.
