(** Model of the manifold of symmetric positive semidefinite matrices of rank p as a quotient,
    Manifolds/SymFixedRankQ.cpp.

    Exact arithmetic over a real closed field, as in StiefelModel.v, whose [dot], [gemm], [gemm0],
    [half], [fix_rows], [upper_pairs] and [lower_pairs] are used.  A point is an n x p matrix x that
    represents x x^T; n = p + k.  A / B and A % B solve a linear system (Element.cpp 391-487), here
    by [invmx]; the theorems assume that x has full column rank.  What LAPACK computes (Householder
    QR, QR, SVD, eigenvalues, a Sylvester equation) is an argument.  Of the fields of a point BL is
    modelled, because one function stores it and another asks for it; _HHR, _tau and EGrad are
    arguments.  The messages of unsupported cases and HasHHR's fields beta and betaTReta, 351-365,
    are not modelled. *)
From mathcomp Require Import all_ssreflect all_algebra.
From Verif Require Import StiefelModel.
Import GRing.Theory Num.Theory.
Set Implicit Arguments.
Unset Strict Implicit.
Local Open Scope ring_scope.

(** SFRankQMetric, SymFixedRankQ.h 36. *)
Inductive sf_metric := SF_EUC | SF_HGZ | SF_QEUC.
(** SFRankQVectorTransport, SymFixedRankQ.h 42. *)
Inductive sf_transport := SF_PARALLELIZATION | SF_PROJECTION.

Section model.
Variables (R : rcfType) (p k : nat).
Local Notation n := (p + k)%N.
Local Notation ext := 'M[R]_(p + k, p).

(** Constructor 14-15. *)
Definition intr_dim : nat := n * p - p * (p - 1) %/ 2.
Definition extr_dim : nat := n * p.

(** SetParams 28-55 with ParamSet and ChooseParamsSet1-6, 59-93. *)
Definition param_set (i : nat) : sf_metric * sf_transport :=
  match i with
  | 1 => (SF_EUC, SF_PARALLELIZATION) | 2 => (SF_HGZ, SF_PARALLELIZATION) | 3 => (SF_QEUC, SF_PARALLELIZATION)
  | 4 => (SF_EUC, SF_PROJECTION) | 5 => (SF_HGZ, SF_PROJECTION) | 6 => (SF_QEUC, SF_PROJECTION)
  | _ => (SF_EUC, SF_PARALLELIZATION)
  end%N.

(** Metric 126-156, extrinsic. *)
Definition metric (m : sf_metric) (x eta xi : ext) : R :=
  match m with
  | SF_EUC =>
    let tmp1 := gemm0 1 eta^T x in let tmp2 := gemm0 1 x^T xi in
    let result := dot tmp1 tmp2 in
    let tmp1 := gemm0 1 x^T x in let tmp2 := gemm0 1 eta^T xi in
    2%:R * (result + dot tmp1 tmp2)
  | SF_QEUC => dot eta xi
  | SF_HGZ => let tmp1 := gemm0 1 x^T x in let tmp2 := gemm0 1 eta^T xi in dot tmp1 tmp2
  end.

(** ExtrProjectionQEUC 178-188: SYL A B C solves A X + X B = C. *)
Definition projection_qeuc (SYL : 'M[R]_p -> 'M[R]_p -> 'M[R]_p -> 'M[R]_p) (x eta : ext) : ext :=
  let XTX := gemm0 1 x^T x in let XTV := gemm0 1 x^T eta in
  let XTV := XTV - XTV^T in
  let tmp := SYL XTX XTX XTV in
  gemm (-1) x tmp 1 eta.
(** ExtrProjectionEUCorHGZ 190-200. *)
Definition projection_euc (x eta : ext) : ext :=
  let XTX := gemm0 1 x^T x in let XTV := gemm0 1 x^T eta in
  let XTV := invmx XTX *m XTV in
  let XTX := half R *: (XTV - XTV^T) in
  gemm (-1) x XTX 1 eta.
(** ExtrProjection 166-176. *)
Definition projection SYL (m : sf_metric) (x eta : ext) : ext :=
  match m with SF_QEUC => projection_qeuc SYL x eta | _ => projection_euc x eta end.

(** EucGradToGrad 369-382: EUC 399-418, HGZ 757-772, QEUC 573-586. *)
Definition gradient SYL (m : sf_metric) (x egf : ext) : ext :=
  let XTX := gemm0 1 x^T x in
  match m with
  | SF_EUC =>
    let result := half R *: (egf *m invmx XTX) in
    let tmp1 := gemm0 1 x^T result in
    let tmp1 := invmx XTX *m tmp1 in
    gemm (- half R) x tmp1 1 result
  | SF_HGZ => egf *m invmx XTX
  | SF_QEUC => projection SYL SF_QEUC x egf
  end.

(** EucHvToHv 384-397: EUC 420-445, HGZ 774-794, QEUC 588-591; [egf] is the field EGrad. *)
Definition hess_euc (x egf eta exix : ext) : ext :=
  let XTX := gemm0 1 x^T x in
  let EGYYinv := egf *m invmx XTX in
  let xTEGYYinv := gemm0 1 x^T EGYYinv in
  let YYinvYTEGYYinv := invmx XTX *m xTEGYYinv in
  let EtaTEGYYinv := gemm0 1 eta^T EGYYinv in
  let YTeta := gemm0 1 x^T eta in
  let YTxix := gemm0 1 x^T exix in
  let YYinvYTEH := invmx XTX *m YTxix in
  let result := exix in
  let result := gemm (- half R) x YYinvYTEH 1 result in
  let result := gemm (- half R) x EtaTEGYYinv^T 1 result in
  let result := gemm (-1) EGYYinv YTeta 1 result in
  let xTEGYYinv := gemm0 1 YYinvYTEGYYinv YTeta in
  let result := gemm 1 x xTEGYYinv 1 result in
  half R *: result *m invmx XTX.
Definition hess_hgz (x egf eta exix : ext) : ext :=
  let XTX := gemm0 1 x^T x in
  let EGYYinv := egf *m invmx XTX in
  let YTEGYYinv := gemm0 1 x^T EGYYinv in
  let EtaTEGYYinv := gemm0 1 eta^T EGYYinv in
  let EtaTY := gemm0 1 eta^T x in
  let result := exix in
  let result := gemm (- half R) EGYYinv EtaTY^T 1 result in
  let result := gemm (- half R) x EtaTEGYYinv^T 1 result in
  let result := gemm (half R) eta YTEGYYinv 1 result in
  let result := gemm (- half R) x EtaTEGYYinv 1 result in
  let result := gemm (half R) eta YTEGYYinv^T 1 result in
  let result := gemm (- half R) EGYYinv EtaTY 1 result in
  result *m invmx XTX.
Definition hessian SYL (m : sf_metric) (x egf eta exix : ext) : ext :=
  match m with
  | SF_EUC => projection SYL m x (hess_euc x egf eta exix)
  | SF_HGZ => projection SYL m x (hess_hgz x egf eta exix)
  | SF_QEUC => projection SYL m x exix
  end.

(** The loops 463-477, 552-566, 610-624, 730-744, 812-826, 899-913: the transpose of the upper
    triangle [r] of the field _HHR of x, with the columns of negative diagonal entry negated. *)
Definition lower_factor (r : 'M[R]_p) : 'M[R]_p :=
  \matrix_(j, i) (if (j < i)%N then 0 else if r i i < 0 then r i j * -1 else r i j).

(** ObtainIntrEUC 447-509 and ObtainIntrHGZ 796-857; [Q] is the orthogonal matrix of the fields _HHR
    and _tau. *)
Definition intr_rot (Q : 'M[R]_(p + k)) (r : 'M[R]_p) (eta : ext) : ext :=
  let tmp := Q^T *m eta in
  col_mx (fix_rows r (usubmx tmp)) (dsubmx tmp).
Definition intr_euc (Q : 'M[R]_(p + k)) (r : 'M[R]_p) (eta : ext) : seq R :=
  let r2 := Num.sqrt 2%:R in
  let tmp := intr_rot Q r eta *m lower_factor r in
  [seq 2%:R * usubmx tmp i i | i <- enum 'I_p] ++
  [seq 2%:R * r2 * usubmx tmp ij.2 ij.1 | ij <- upper_pairs p] ++
  [seq r2 * dsubmx tmp ij.2 ij.1 | ij <- lower_pairs p k].
Definition intr_hgz (Q : 'M[R]_(p + k)) (r : 'M[R]_p) (eta : ext) : seq R :=
  let r2 := Num.sqrt 2%:R in
  let tmp := intr_rot Q r eta *m lower_factor r in
  [seq usubmx tmp i i | i <- enum 'I_p] ++
  [seq r2 * usubmx tmp ij.2 ij.1 | ij <- upper_pairs p] ++
  [seq dsubmx tmp ij.2 ij.1 | ij <- lower_pairs p k].

(** ObtainExtrEUC 511-571 and ObtainExtrHGZ 859-918; idx counts the steps of the loops. *)
Definition extr_rot (Q : 'M[R]_(p + k)) (r : 'M[R]_p) (res : ext) : ext :=
  let res := col_mx (fix_rows r (usubmx res)) (dsubmx res) in
  Q *m (res *m invmx (lower_factor r)).
Definition extr_euc (Q : 'M[R]_(p + k)) (r : 'M[R]_p) (v : seq R) : ext :=
  let r2 := Num.sqrt 2%:R in
  let off := fun ab => nth 0 v (size (enum 'I_p) + index ab (upper_pairs p)) / r2 / 2%:R in
  let top : 'M[R]_p := \matrix_(a, b) (if a == b then nth 0 v (index a (enum 'I_p)) / 2%:R
    else if (b < a)%N then off (b, a) else off (a, b)) in
  let bottom : 'M[R]_(k, p) := \matrix_(j, i)
    (nth 0 v (size (enum 'I_p) + (size (upper_pairs p) + index (i, j) (lower_pairs p k))) / r2) in
  extr_rot Q r (col_mx top bottom).
Definition extr_hgz (Q : 'M[R]_(p + k)) (r : 'M[R]_p) (v : seq R) : ext :=
  let r2 := Num.sqrt 2%:R in
  let off := fun ab => nth 0 v (size (enum 'I_p) + index ab (upper_pairs p)) / r2 in
  let top : 'M[R]_p := \matrix_(a, b) (if a == b then nth 0 v (index a (enum 'I_p))
    else if (b < a)%N then off (b, a) else off (a, b)) in
  let bottom : 'M[R]_(k, p) := \matrix_(j, i)
    nth 0 v (size (enum 'I_p) + (size (upper_pairs p) + index (i, j) (lower_pairs p k))) in
  extr_rot Q r (col_mx top bottom).

(** The index pairs in the order of the loops 629-636, 656-665 and 710-718. *)
Definition weak_pairs : seq ('I_p * 'I_p) :=
  flatten [seq [seq (i, j) | j <- filter (fun j : 'I_p => (i <= j)%N) (enum 'I_p)] | i : 'I_p <- enum 'I_p].
Local Notation d := (size weak_pairs).
Definition pair_at (c : 'I_(size weak_pairs)) : 'I_p * 'I_p := tnth (in_tuple weak_pairs) c.
(** The matrix B of 651-665: column idx holds, column by column, the solution of L X = E with E the
    symmetric matrix of idx. *)
Definition basis (c : 'I_(size weak_pairs)) : 'M[R]_p :=
  let ij := pair_at c in
  \matrix_(a, b) (((a == ij.2) && (b == ij.1)) || ((a == ij.1) && (b == ij.2)))%:R.
Definition basis_columns (L : 'M[R]_p) : 'M[R]_(p * p, size weak_pairs) :=
  \matrix_(a, c) (mxvec (invmx L *m basis c)^T) 0 a.
(** BL, 671-686, of the R factor of B. *)
Definition lower_of (rB : 'M[R]_(size weak_pairs)) : 'M[R]_(size weak_pairs) :=
  \matrix_(j, i) (if (j < i)%N then 0 else rB i j * (if 0 <= rB i i then 1 else -1)).
(** ObtainIntrQEUC 593-692: the coordinates, and the field BL of x afterwards. *)
Definition intr_qeuc (QRB : 'M[R]_(p * p, size weak_pairs) -> 'M[R]_(p * p, size weak_pairs) * 'M[R]_(size weak_pairs))
    (Q : 'M[R]_(p + k)) (r : 'M[R]_p) (eta : ext) : seq R * 'M[R]_(size weak_pairs) :=
  let L := lower_factor r in
  let tmp := intr_rot Q r eta in
  let Ltmp := L *m usubmx tmp in
  let coef := \col_c Ltmp (pair_at c).2 (pair_at c).1 in
  let BL := lower_of (QRB (basis_columns L)).2 in
  let first := BL^T *m coef in
  ([seq first c 0 | c <- enum 'I_d] ++ [seq dsubmx tmp ij.2 ij.1 | ij <- lower_pairs p k], BL).
(** ObtainExtrQEUC 694-755; [BL] is the field of x, [None] if there is none. *)
Definition extr_qeuc (BL : option 'M[R]_(size weak_pairs)) (Q : 'M[R]_(p + k)) (r : 'M[R]_p) (v : seq R) : option ext :=
  match BL with
  | None => None
  | Some BL =>
    let tmp := invmx BL^T *m \col_(c < d) nth 0 v c in
    let at_ := fun ab => nth 0 [seq tmp c 0 | c <- enum 'I_d] (index ab weak_pairs) in
    let top : 'M[R]_p := \matrix_(a, b) (if (b <= a)%N then at_ (b, a) else at_ (a, b)) in
    let bottom : 'M[R]_(k, p) := \matrix_(j, i) nth 0 v (d + index (i, j) (lower_pairs p k)) in
    let top := invmx (lower_factor r) *m top in
    Some (Q *m col_mx (fix_rows r top) bottom)
  end.

(** ObtainIntr 202-215 and ObtainExtr 217-229 with the field BL of the point. *)
Section coordinates.
Variable QRB : 'M[R]_(p * p, size weak_pairs) -> 'M[R]_(p * p, size weak_pairs) * 'M[R]_(size weak_pairs).
Definition obtain_intr (m : sf_metric) (BL : option 'M[R]_(size weak_pairs)) Q r (eta : ext) :
    seq R * option 'M[R]_(size weak_pairs) :=
  match m with
  | SF_EUC => (intr_euc Q r eta, BL)
  | SF_HGZ => (intr_hgz Q r eta, BL)
  | SF_QEUC => let (v, BL) := intr_qeuc QRB Q r eta in (v, Some BL)
  end.
Definition obtain_extr (m : sf_metric) (BL : option 'M[R]_(size weak_pairs)) Q r (v : seq R) : option ext :=
  match m with
  | SF_EUC => Some (extr_euc Q r v)
  | SF_HGZ => Some (extr_hgz Q r v)
  | SF_QEUC => extr_qeuc BL Q r v
  end.
(** VectorTransport 237-254 without HasHHR: Manifold::VectorTransport copies the coordinates;
    VectorTransportProj 920-929, intrinsic. *)
Definition transport_coords (t : sf_transport) (m : sf_metric) (BLx BLy : option 'M[R]_(size weak_pairs))
    Qx rx Qy ry (v : seq R) : option (seq R) :=
  match t with
  | SF_PARALLELIZATION => Some v
  | SF_PROJECTION =>
    match obtain_extr m BLx Qx rx v with
    | None => None
    | Some exxix => Some (obtain_intr m BLy Qy ry exxix).1
    end
  end.
(** VectorTransportProj 928, extrinsic. *)
Definition transport_extr SYL (m : sf_metric) (y xix : ext) : ext := projection SYL m y xix.
(** DiffRetraction 337-349, intrinsic and extrinsic. *)
Definition diff_retraction_coords SYL (m : sf_metric) (BLx BLy : option 'M[R]_(size weak_pairs))
    Qx rx Qy ry (y : ext) (v : seq R) : option (seq R) :=
  match obtain_extr m BLx Qx rx v with
  | None => None
  | Some exxix => Some (obtain_intr m BLy Qy ry (projection SYL m y exxix)).1
  end.
Definition diff_retraction SYL (m : sf_metric) (y xix : ext) : ext := projection SYL m y xix.
End coordinates.

(** Retraction 296-332, intrinsic, after ObtainExtr.  [QR] is QRDecom of a matrix with at least as
    many rows as columns; otherwise Q has n columns and Z n rows, and GetSubmatrix 322 reads
    entries p .. 2p-1 of the n eigenvalues: no result.  GetSqrt of a negative number is not a number:
    no result. *)
Section retraction.
Variables (QR : 'M[R]_(p + k, p + p) -> 'M[R]_(p + k, p + p) * 'M[R]_(p + p))
  (EIG : 'M[R]_(p + p) -> 'M[R]_(p + p) * 'rV[R]_(p + p)) (SVD : 'M[R]_p -> 'M[R]_p * 'rV[R]_p * 'M[R]_p).
Definition middle (S : 'M[R]_p) : 'M[R]_(p + p) := block_mx (1%:M + S + S^T) 1%:M 1%:M 0.
Definition retraction (x eta : ext) : option ext :=
  if (n < p + p)%N then None else
  let tmp1 := gemm0 1 x^T x in let tmp2 := gemm0 1 x^T eta in
  let S := invmx tmp1 *m tmp2 in
  let Yp := gemm (-1) x S 1 eta in
  let YYp := row_mx x Yp in
  let (YYp_Q, YYp_R) := QR YYp in
  let Z := YYp_R *m middle S *m YYp_R^T in
  let (V, lam) := EIG Z in
  if [exists i, rsubmx lam 0 i < 0] then None else
  let ZD := \row_i Num.sqrt (rsubmx lam 0 i) in
  let ZU := rsubmx V in
  let ZUD := ZU *m diag_mx ZD in
  let Yp := gemm0 1 YYp_Q ZUD in
  let XtY := gemm0 1 x^T Yp in
  let: (U, _, Vt) := SVD XtY in
  let tmp1 := gemm0 1 Vt^T U^T in
  Some (gemm0 1 Yp tmp1).
End retraction.
End model.

(** CheckParams 105-124: the names are read by the index of the enumeration. *)
From Coq Require Import String.
Definition sf_index (m : sf_metric) : nat := match m with SF_EUC => 0 | SF_HGZ => 1 | SF_QEUC => 2 end%N.
Definition sf_names : seq string := [:: "SFRANKQEUC"; "SFRANKQQEUC"; "SFRANKQHGZ"]%string.
Definition printed_metric (m : sf_metric) : string := nth ""%string sf_names (sf_index m).
