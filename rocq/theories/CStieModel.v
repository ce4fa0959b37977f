(** Model of the complex Stiefel manifold, Manifolds/CStiefel.cpp, and of the Brockett problem on
    it, Problems/CStieBrockett.cpp.

    Exact arithmetic over the complex numbers of a real closed field.  An element of n rows and p
    columns of complex type is a matrix; n = p + k.  GLOBAL::C and GetTranspose of a complex element
    (Element.cpp 2262-2290) are the conjugate transpose.  LAPACK's results are arguments, of which
    the theorems assume what LAPACK documents (CStieSpec.v); trsm_ is [invmx].  The fields _HHR,
    _tau, _Vt, _S and EGrad are arguments. *)
From mathcomp Require Import all_ssreflect all_algebra.
From mathcomp.real_closed Require Import complex.
From Verif Require Import StiefelModel CStieSpec.
Import GRing.Theory Num.Theory.
Set Implicit Arguments.
Unset Strict Implicit.
Local Open Scope ring_scope.
Local Open Scope complex_scope.

Section model.
Variable R : rcfType.
Local Notation C := R[i].
Local Notation re := (@complex.Re R).
Local Notation im := (@complex.Im R).

(** Element::DotProduct 1751-1762: of the 2 m n real numbers. *)
Definition cdot m n (A B : 'M[C]_(m, n)) : R :=
  \sum_i \sum_j (re (A i j) * re (B i j) + im (A i j) * im (B i j)).
(** AlphaABaddBetaThis, Element.cpp 1675-1750, with complex or real alpha and beta. *)
Definition cgemm m n q (alpha : C) (A : 'M[C]_(m, n)) (B : 'M[C]_(n, q)) (beta : C) (D : 'M[C]_(m, q)) :=
  alpha *: (A *m B) + beta *: D.
Definition cgemm0 m n q (alpha : C) (A : 'M[C]_(m, n)) (B : 'M[C]_(n, q)) : 'M[C]_(m, q) := alpha *: (A *m B).
(** (tmp + tmp.GetTranspose()) / 2 *)
Definition herm_part n (A : 'M[C]_n) : 'M[C]_n := rscale (half R) (A + adj A).

Variables p k : nat.
Local Notation ext := 'M[C]_(p + k, p).

(** CStiefel::Metric 77-90, extrinsic. *)
Definition cmetric_euclidean (eta xi : ext) : R := cdot eta xi.
Definition cmetric_canonical (x eta xi : ext) : R :=
  let tmp1 := cgemm0 1 (adj eta) x in
  let tmp2 := cgemm0 1 (adj xi) x in
  cdot eta xi - half R * cdot tmp1 tmp2.

(** ExtrProjection 114-122. *)
Definition cprojection (x eta : ext) : ext :=
  let tmp := cgemm0 1 (adj x) eta in
  let tmp := herm_part tmp in
  cgemm (-1) x tmp 1 eta.

(** VectorTransport 187-203 with CSTIE_PROJECTION. *)
Definition ctransport_projection (y xi : ext) : ext := cprojection y xi.

(** EucGradToGrad 276-299. *)
Definition cgrad_euclidean (x egf : ext) : ext := cprojection x egf.
Definition cgrad_canonical (x egf : ext) : ext :=
  let tmp := cgemm0 1 (adj egf) x in
  cgemm (-1) x tmp 1 egf.

(** EucHvToHv 301-310, Euclidean metric (no parameter set selects the other one); [G] is the field
    EGrad. *)
Definition chess_euclidean (x eta exix G : ext) : ext :=
  let tmp := cgemm0 1 (adj x) G in
  let tmp := herm_part tmp in
  let result := cgemm (-1) eta tmp 1 exix in
  cprojection x result.

(** scal_ with GLOBAL::ZNONE of column i where the real part of the i-th diagonal entry is
    negative, 433-439 and 469-473, and of row i, 599-603 and 677-681. *)
Definition cfix_columns m (r : 'M[C]_p) (Q : 'M[C]_(m, p)) : 'M[C]_(m, p) :=
  \matrix_(a, i) (if re (r i i) < 0 then - Q a i else Q a i).
Definition cfix_rows m (r : 'M[C]_p) (A : 'M[C]_(p, m)) : 'M[C]_(p, m) :=
  \matrix_(i, a) (if re (r i i) < 0 then - A i a else A i a).

(** qfRetraction 416-444, extrinsic. *)
Definition cqf_retraction (QR : ext -> ext * 'M[C]_p) (x eta : ext) : ext :=
  let (Q, r) := QR (x + eta) in cfix_columns r Q.

(** The loop 477-488. *)
Definition cdiff_upper (M : 'M[C]_p) : 'M[C]_p :=
  \matrix_(i, j) (if i == j then (- re (M i i)) +i* 0
                  else if (i < j)%N then (- re (M j i) - re (M i j)) +i* (im (M j i) - im (M i j))
                  else 0).
(** DiffqfRetraction 452-512, extrinsic: [r] is the upper triangle of the field _HHR of y. *)
Definition cdiff_qf (r : 'M[C]_p) (y xi : ext) : ext :=
  let exxix := xi *m invmx r in
  let exxix := cfix_columns r exxix in
  let YtVRinv := cgemm0 1 (adj y) exxix in
  cgemm 1 y (cdiff_upper YtVRinv) 1 exxix.

(** PolarRetraction 514-529, extrinsic. *)
Definition cpolar_retraction (SVD : ext -> ext * 'rV[R]_p * 'M[C]_p) (x eta : ext) : ext :=
  let: (U, _, Vt) := SVD (eta + x) in U *m Vt.
(** sqrt(Metric(x, xix, xix) / Metric(x, etax, etax)), 560. *)
Definition cnorm_ratio (eta xi : ext) : R := Num.sqrt (cmetric_euclidean xi xi / cmetric_euclidean eta eta).
(** DiffPolarRetraction 549-593 for eta and xi of the same direction, [alpha] the quotient of their
    norms. *)
Definition cdiff_polar (S : 'rV[R]_p) (Vt : 'M[C]_p) (alpha : R) (y eta : ext) : ext :=
  let tmp := cgemm0 1 eta (adj Vt) in
  let S := \row_i (1 / S 0 i) in
  let tmp := (tmp *m rdiag S) *m Vt in
  let tmp2 := cgemm0 1 (adj tmp) tmp in
  cgemm (- alpha%:C) y tmp2 alpha%:C tmp.

(** ObtainIntrHHR 595-641: [Q] is the product of the Householder reflectors in the field _HHR of
    x (HHRMtp), [r] its upper triangle. *)
Definition cobtain_intr (Q : 'M[C]_(p + k)) (r : 'M[C]_p) (eta : ext) : seq R :=
  let tmp := adj Q *m eta in
  let top := cfix_rows r (usubmx tmp) in
  let r2 := Num.sqrt 2%:R in
  [seq im (top i i) | i <- enum 'I_p] ++
  (flatten [seq [:: r2 * (re (top ij.2 ij.1) - re (top ij.1 ij.2)) / 2%:R;
                    r2 * (im (top ij.2 ij.1) + im (top ij.1 ij.2)) / 2%:R] | ij <- upper_pairs p] ++
   flatten [seq [:: re (dsubmx tmp ij.2 ij.1); im (dsubmx tmp ij.2 ij.1)] | ij <- lower_pairs p k]).
(** ObtainExtrHHR 643-690: [idx] after the first loop is p; each step of the second and third
    loops reads two numbers. *)
Definition cobtain_extr (Q : 'M[C]_(p + k)) (r : 'M[C]_p) (v : seq R) : ext :=
  let r2 := Num.sqrt 2%:R in
  let at2 b i := nth 0 v (b + i.*2) +i* nth 0 v (b + i.*2.+1) in
  let b2 := size (enum 'I_p) in
  let b3 := (b2 + (size (upper_pairs p)).*2)%N in
  let low b a := let z := at2 b2 (index (b, a) (upper_pairs p)) in (re z / r2) +i* (im z / r2) in
  let top := \matrix_(a, b) (if a == b then 0 +i* nth 0 v (index a (enum 'I_p))
    else if (b < a)%N then low b a
    else (- re (low a b)) +i* im (low a b)) in
  let bottom := \matrix_(j, i) at2 b3 (index (i, j) (lower_pairs p k)) in
  Q *m col_mx (cfix_rows r top) bottom.

(** ObtainNorVerIntr 351-383. *)
Definition cnormal_intr (x eta : ext) : seq R :=
  let xTetax := cgemm0 1 (adj x) eta in
  let r2 := Num.sqrt 2%:R in
  [seq re (xTetax i i) | i <- enum 'I_p] ++
  ([seq (re (xTetax ij.1 ij.2) + re (xTetax ij.2 ij.1)) / r2 | ij <- upper_pairs p] ++
   [seq (im (xTetax ij.1 ij.2) - im (xTetax ij.2 ij.1)) / r2 | ij <- upper_pairs p]).
(** ObtainNorVerExtr 385-414.  The imaginary parts of the diagonal of xTetax are never written:
    they are what the memory returned by ObtainWriteEntireData held, [junk]. *)
Definition cnormal_extr (junk : 'I_p -> R) (x : ext) (v : seq R) : ext :=
  let r2 := Num.sqrt 2%:R in
  let b2 := size (enum 'I_p) in
  let b3 := (b2 + size (upper_pairs p))%N in
  let up a b := (nth 0 v (b2 + index (a, b) (upper_pairs p)) / r2)
     +i* (nth 0 v (b3 + index (a, b) (upper_pairs p)) / r2) in
  let S := \matrix_(a, b) (if a == b then nth 0 v (index a (enum 'I_p)) +i* junk a
    else if (a < b)%N then up a b
    else re (up b a) +i* (- im (up b a))) in
  cgemm0 1 x S.

(** CStieBrockett::f 20-27, EucGrad 29-34 (its argument the field BxD that f attaches to x) and
    EucHessianEta 36-41.  D.DiagTimesM(M, "R"), Element.cpp 1559-1600, multiplies column j by D_j. *)
Definition cbrockett_BxD (B : 'M[C]_(p + k)) (D : 'rV[C]_p) (x : ext) : ext := cgemm0 1 B x *m diag_mx D.
Definition cbrockett_f B D (x : ext) : R := cdot x (cbrockett_BxD B D x).
Definition cbrockett_grad B D (x : ext) : ext := rscale 2%:R (cbrockett_BxD B D x).
Definition cbrockett_hess (B : 'M[C]_(p + k)) (D : 'rV[C]_p) (eta : ext) : ext := cgemm0 2%:R B eta *m diag_mx D.
End model.

(** The storage of the matrix products of the file: an element is complex or not, has rows and
    columns, and owns one or two real numbers for each entry (Element.cpp, the constructors). *)
Record buf := Buf { cplx : bool; rows : nat; cols : nat }.
Definition owned (b : buf) : nat := ((if cplx b then 2 else 1) * (rows b * cols b))%N.
(** What a statement does: it may end in an assertion or write past the storage of its result. *)
Inductive outcome := Fine | Asserts | Overruns.
(** AlphaABaddBetaThis, Element.cpp 1675-1717 and 1719-1749: [tA] and [tB] say whether the operand
    is transposed.  gemm_ writes row * col numbers of its type into the result. *)
Definition product_numbers (per : nat) (this A : buf) (tA : bool) (B : buf) (tB : bool) : outcome :=
  let row := if tA then cols A else rows A in
  let kk := if tA then rows A else cols A in
  let col := if tB then rows B else cols B in
  if kk == (if tB then cols B else rows B) then
    if (rows this * cols this == row * col)%N then
      if (per * (row * col) <= owned this)%N then Fine else Overruns
    else Asserts
  else Asserts.
Definition product_outcome (this A : buf) (tA : bool) (B : buf) (tB : bool) : outcome :=
  if ~~ cplx A && ~~ cplx B then product_numbers 1 this A tA B tB
  else if cplx A then (if cplx A && cplx B then product_numbers 2 this A tA B tB else Asserts)
  else Asserts.
(** Statements: a product, and SYL (Element.cpp 1427-1430: its assertions). *)
Inductive stmt :=
| Product (this A : buf) (tA : bool) (B : buf) (tB : bool)
| Syl (this A B : buf).
Definition stmt_outcome (s : stmt) : outcome :=
  match s with
  | Product this A tA B tB => product_outcome this A tA B tB
  | Syl this A B =>
      if (cplx this == cplx A) && (cplx this == cplx B) && (rows A == cols A) && (rows B == cols B)
         && (cols A == rows this) && (rows B == cols this) then Fine else Asserts
  end.
(** The first statement that is not fine decides. *)
Fixpoint run (l : seq stmt) : outcome :=
  if l is s :: l then (if stmt_outcome s is Fine then run l else stmt_outcome s) else Fine.
(** The member functions, each with the products it performs, in their order. *)
Inductive fn := FMetric | FProjection | FGradEuclidean | FGradCanonical | FHessEuclidean | FHessCanonical
| FNorIntr | FNorExtr | FDiffqf | FDiffPolar | FInvPolar.
Definition all_fn := [:: FMetric; FProjection; FGradEuclidean; FGradCanonical; FHessEuclidean; FHessCanonical;
  FNorIntr; FNorExtr; FDiffqf; FDiffPolar; FInvPolar].
Definition statements (f : fn) (n p : nat) : seq stmt :=
  let X := Buf true n p in        (* points and tangent vectors, EMPTYEXTR *)
  let S := Buf true p p in        (* Vector tmp(p, p, "complex") *)
  let T := Buf false p p in       (* Vector tmp(p, p) *)
  let proj := [:: Product S X true X false; Product X X false S false] in
  match f with
  | FMetric => [:: Product S X true X false; Product S X true X false]                 (* 86-87 *)
  | FProjection => proj                                                                (* 116-119 *)
  | FGradEuclidean => proj                                                             (* 287-290 *)
  | FGradCanonical => [:: Product S X true X false; Product X X false S false]         (* 293-294 *)
  | FHessEuclidean => [:: Product S X true X false; Product X X false S false] ++ proj (* 302-308 *)
  | FHessCanonical =>                                                                  (* 310-329 *)
      [:: Product S X true X false; Product S X true X false;
          Product T X true X false; Product X X false T false;
          (* tmp3 = (tmp - tmp.GetTranspose()) / 2 makes tmp3 complex *)
          Product X X false S false; Product S X true X false; Product X X false S false;
          Product S X true X false; Product X X false S false; Product X X false S false;
          Product S S true S false; Product X X false S false]
  | FNorIntr => [:: Product S X true X false]                                          (* 354 *)
  | FNorExtr => [:: Product X X false S false]                                         (* 412 *)
  | FDiffqf => [:: Product S X true X false; Product X X false S false]                (* 474-490 *)
  | FDiffPolar => [:: Product X X false S true; Product X X false S false;             (* 556-560 *)
      Product S X true X false; Product X X false S false]
  | FInvPolar => [:: Product T X true X false; Syl T T T; Product X X false T false]   (* 528-532 *)
  end.
