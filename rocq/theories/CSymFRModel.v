(** Model of the manifold of Hermitian positive semidefinite matrices of rank p as a quotient,
    Manifolds/CSymFixedRankQ.cpp.

    Exact arithmetic over the complex numbers of a real closed field, as in CStieModel.v, whose [cdot],
    [cgemm], [cgemm0] and [cfix_rows] are used, with [half], [upper_pairs] and [lower_pairs] of
    StiefelModel.v.  A point is an n x p matrix x that represents x x^H; n = p + k.  GetTranspose of a
    complex element is the conjugate transpose.  A / B and A % B solve a linear system (Element.cpp
    391-487), here by [invmx]; the theorems assume that x has full column rank.  What LAPACK computes
    (Householder QR, QR, SVD, eigenvalues) is an argument, and so are the fields _HHR, _tau and
    EGrad of a point.  The messages of unsupported cases and the fields beta and betaTReta of
    DiffRetraction 299-313 are not modelled. *)
From mathcomp Require Import all_ssreflect all_algebra.
From mathcomp.real_closed Require Import complex.
From Verif Require Import StiefelModel CStieSpec CStieModel.
Import GRing.Theory Num.Theory.
Set Implicit Arguments.
Unset Strict Implicit.
Local Open Scope ring_scope.
Local Open Scope complex_scope.

(** CSFRankQMetric, CSymFixedRankQ.h 38. *)
Inductive csf_metric := CSF_EUC | CSF_HGZ.
(** CSFRankQVectorTransport, CSymFixedRankQ.h 44. *)
Inductive csf_transport := CSF_PARALLELIZATION | CSF_PROJECTION.

Section model.
Variables (R : rcfType) (p k : nat).
Local Notation C := R[i].
Local Notation re := (@complex.Re R).
Local Notation im := (@complex.Im R).
Local Notation n := (p + k)%N.
Local Notation ext := 'M[R[i]]_(p + k, p).

(** Constructor 14-15. *)
Definition intr_dim : nat := 2 * n * p - p * p.
Definition extr_dim : nat := 2 * n * p.

(** SetParams 26-55 with ParamSet and ChooseParamsSet1-4, 57-79. *)
Definition param_set (i : nat) : csf_metric * csf_transport :=
  match i with
  | 1 => (CSF_EUC, CSF_PARALLELIZATION) | 2 => (CSF_HGZ, CSF_PARALLELIZATION)
  | 3 => (CSF_EUC, CSF_PROJECTION) | 4 => (CSF_HGZ, CSF_PROJECTION)
  | _ => (CSF_EUC, CSF_PARALLELIZATION)
  end%N.

(** Metric 108-134, extrinsic. *)
Definition metric (m : csf_metric) (x eta xi : ext) : R :=
  match m with
  | CSF_EUC =>
    let tmp1 := cgemm0 1 (adj eta) x in let tmp2 := cgemm0 1 (adj x) xi in
    let result := cdot tmp1 tmp2 in
    let tmp1 := cgemm0 1 (adj x) x in let tmp2 := cgemm0 1 (adj eta) xi in
    2%:R * (result + cdot tmp1 tmp2)
  | CSF_HGZ => let tmp1 := cgemm0 1 (adj x) x in let tmp2 := cgemm0 1 (adj eta) xi in cdot tmp1 tmp2
  end.

(** ExtrProjection 144-154. *)
Definition projection (x eta : ext) : ext :=
  let XTX := cgemm0 1 (adj x) x in let XTV := cgemm0 1 (adj x) eta in
  let XTV := invmx XTX *m XTV in
  let XTX := (half R)%:C *: (XTV - adj XTV) in
  cgemm (-1) x XTX 1 eta.

(** EucGradToGrad 317-327: EUC 341-361, HGZ 393-408. *)
Definition gradient (m : csf_metric) (x egf : ext) : ext :=
  let XTX := cgemm0 1 (adj x) x in
  match m with
  | CSF_EUC =>
    let result := (half R)%:C *: (egf *m invmx XTX) in
    let tmp1 := cgemm0 1 (adj x) result in
    let tmp1 := invmx XTX *m tmp1 in
    cgemm (- (half R)%:C) x tmp1 1 result
  | CSF_HGZ => egf *m invmx XTX
  end.

(** EucHvToHv 329-339: EUC 364-390, HGZ 411-432; [egf] is the field EGrad. *)
Definition hess_euc (x egf eta exix : ext) : ext :=
  let XTX := cgemm0 1 (adj x) x in
  let EGYYinv := egf *m invmx XTX in
  let xTEGYYinv := cgemm0 1 (adj x) EGYYinv in
  let YYinvYTEGYYinv := invmx XTX *m xTEGYYinv in
  let EtaTEGYYinv := cgemm0 1 (adj eta) EGYYinv in
  let YTeta := cgemm0 1 (adj x) eta in
  let YTxix := cgemm0 1 (adj x) exix in
  let YYinvYTEH := invmx XTX *m YTxix in
  let result := exix in
  let result := cgemm (- (half R)%:C) x YYinvYTEH 1 result in
  let result := cgemm (- (half R)%:C) x (adj EtaTEGYYinv) 1 result in
  let result := cgemm (-1) EGYYinv YTeta 1 result in
  let xTEGYYinv := cgemm0 1 YYinvYTEGYYinv YTeta in
  let result := cgemm 1 x xTEGYYinv 1 result in
  (half R)%:C *: (result *m invmx XTX).
Definition hess_hgz (x egf eta exix : ext) : ext :=
  let XTX := cgemm0 1 (adj x) x in
  let EGYYinv := egf *m invmx XTX in
  let YTEGYYinv := cgemm0 1 (adj x) EGYYinv in
  let EtaTEGYYinv := cgemm0 1 (adj eta) EGYYinv in
  let EtaTY := cgemm0 1 (adj eta) x in
  let result := exix in
  let result := cgemm (- (half R)%:C) EGYYinv (adj EtaTY) 1 result in
  let result := cgemm (- (half R)%:C) x (adj EtaTEGYYinv) 1 result in
  let result := cgemm ((half R)%:C) eta YTEGYYinv 1 result in
  let result := cgemm (- (half R)%:C) x EtaTEGYYinv 1 result in
  let result := cgemm ((half R)%:C) eta (adj YTEGYYinv) 1 result in
  let result := cgemm (- (half R)%:C) EGYYinv EtaTY 1 result in
  result *m invmx XTX.
Definition hessian (m : csf_metric) (x egf eta exix : ext) : ext :=
  match m with
  | CSF_EUC => projection x (hess_euc x egf eta exix)
  | CSF_HGZ => projection x (hess_hgz x egf eta exix)
  end.

(** The loops 451-470, 548-567, 598-617 and 696-715: the conjugate transpose of the upper triangle [r]
    of the field _HHR of x, with the columns whose diagonal entry has a negative real part negated. *)
Definition lower_factor (r : 'M[C]_p) : 'M[C]_p :=
  \matrix_(j, i) (if (j < i)%N then 0
    else let z := re (r i j) +i* (- im (r i j)) in
      if re (r i i) < 0 then (re z * -1) +i* (im z * -1) else z).

(** ObtainIntr 156-166: EUC 435-504 and HGZ 582-652; [Q] is the unitary matrix of the fields _HHR
    and _tau. *)
Definition intr_rot (Q : 'M[C]_(p + k)) (r : 'M[C]_p) (eta : ext) : ext :=
  let tmp := adj Q *m eta in
  col_mx (cfix_rows r (usubmx tmp)) (dsubmx tmp).
Definition intr_euc (Q : 'M[C]_(p + k)) (r : 'M[C]_p) (eta : ext) : seq R :=
  let r2 := Num.sqrt 2%:R in
  let tmp := intr_rot Q r eta *m lower_factor r in
  [seq 2%:R * re (usubmx tmp i i) | i <- enum 'I_p] ++
  flatten [seq [:: 2%:R * r2 * re (usubmx tmp ij.2 ij.1); 2%:R * r2 * im (usubmx tmp ij.2 ij.1)] | ij <- upper_pairs p] ++
  flatten [seq [:: r2 * re (dsubmx tmp ij.2 ij.1); r2 * im (dsubmx tmp ij.2 ij.1)] | ij <- lower_pairs p k].
Definition intr_hgz (Q : 'M[C]_(p + k)) (r : 'M[C]_p) (eta : ext) : seq R :=
  let r2 := Num.sqrt 2%:R in
  let tmp := intr_rot Q r eta *m lower_factor r in
  [seq re (usubmx tmp i i) | i <- enum 'I_p] ++
  flatten [seq [:: r2 * re (usubmx tmp ij.2 ij.1); r2 * im (usubmx tmp ij.2 ij.1)] | ij <- upper_pairs p] ++
  flatten [seq [:: re (dsubmx tmp ij.2 ij.1); im (dsubmx tmp ij.2 ij.1)] | ij <- lower_pairs p k].
Definition obtain_intr (m : csf_metric) Q r (eta : ext) : seq R :=
  match m with CSF_EUC => intr_euc Q r eta | CSF_HGZ => intr_hgz Q r eta end.

(** ObtainExtr 168-178: EUC 507-578 and HGZ 655-727; idx counts one number for each diagonal entry and
    two for each other step of the loops. *)
Definition extr_rot (Q : 'M[C]_(p + k)) (r : 'M[C]_p) (res : ext) : ext :=
  let res := res *m invmx (lower_factor r) in
  Q *m col_mx (cfix_rows r (usubmx res)) (dsubmx res).
Definition extr_euc (Q : 'M[C]_(p + k)) (r : 'M[C]_p) (v : seq R) : ext :=
  let r2 := Num.sqrt 2%:R in
  let at_ i := nth 0 v (p + i) in
  let lower ab := let i := index ab (upper_pairs p) in (at_ i.*2 / r2 / 2%:R) +i* (at_ i.*2.+1 / r2 / 2%:R) in
  let upper ab := let i := index ab (upper_pairs p) in (at_ i.*2 / r2 / 2%:R) +i* (- at_ i.*2.+1 / r2 / 2%:R) in
  let top : 'M[C]_p := \matrix_(a, b) (if a == b then (nth 0 v a / 2%:R) +i* 0
    else if (b < a)%N then lower (b, a) else upper (a, b)) in
  let low i := nth 0 v (p + ((size (upper_pairs p)).*2 + i)) in
  let bottom : 'M[C]_(k, p) := \matrix_(j, i) (let c := index (i, j) (lower_pairs p k) in
    (low c.*2 / r2) +i* (low c.*2.+1 / r2)) in
  extr_rot Q r (col_mx top bottom).
Definition extr_hgz (Q : 'M[C]_(p + k)) (r : 'M[C]_p) (v : seq R) : ext :=
  let r2 := Num.sqrt 2%:R in
  let at_ i := nth 0 v (p + i) in
  let lower ab := let i := index ab (upper_pairs p) in (at_ i.*2 / r2) +i* (at_ i.*2.+1 / r2) in
  let upper ab := let i := index ab (upper_pairs p) in (at_ i.*2 / r2) +i* (- at_ i.*2.+1 / r2) in
  let top : 'M[C]_p := \matrix_(a, b) (if a == b then (nth 0 v a) +i* 0
    else if (b < a)%N then lower (b, a) else upper (a, b)) in
  let low i := nth 0 v (p + ((size (upper_pairs p)).*2 + i)) in
  let bottom : 'M[C]_(k, p) := \matrix_(j, i) (let c := index (i, j) (lower_pairs p k) in
    (low c.*2) +i* (low c.*2.+1)) in
  extr_rot Q r (col_mx top bottom).
Definition obtain_extr (m : csf_metric) Q r (v : seq R) : ext :=
  match m with CSF_EUC => extr_euc Q r v | CSF_HGZ => extr_hgz Q r v end.

(** VectorTransport 186-203 without HasHHR: Manifold::VectorTransport copies the coordinates;
    VectorTransportProj 730-739, intrinsic. *)
Definition transport_coords (t : csf_transport) (m : csf_metric) Qx rx Qy ry (v : seq R) : seq R :=
  match t with
  | CSF_PARALLELIZATION => v
  | CSF_PROJECTION => obtain_intr m Qy ry (obtain_extr m Qx rx v)
  end.
(** VectorTransportProj 738, extrinsic. *)
Definition transport_extr (y xix : ext) : ext := projection y xix.
(** DiffRetraction 285-297, intrinsic and extrinsic. *)
Definition diff_retraction_coords (m : csf_metric) Qx rx Qy ry (y : ext) (v : seq R) : seq R :=
  obtain_intr m Qy ry (projection y (obtain_extr m Qx rx v)).
Definition diff_retraction (y xix : ext) : ext := projection y xix.

(** Retraction 245-283, intrinsic, after ObtainExtr.  [QR] is QRDecom of a matrix with at least as
    many rows as columns; otherwise Q has n columns and Z n rows, and GetSubmatrix 270 reads
    entries p .. 2p-1 of the n eigenvalues: no result.  The eigenvalues are real (EigenDecomSym,
    Element.cpp 897-963, stores them with zero imaginary parts).  GetSqrt of a negative number is
    not a number: no result. *)
Section retraction.
Variables (QR : 'M[C]_(p + k, p + p) -> 'M[C]_(p + k, p + p) * 'M[C]_(p + p))
  (EIG : 'M[C]_(p + p) -> 'M[C]_(p + p) * 'rV[R]_(p + p)) (SVD : 'M[C]_p -> 'M[C]_p * 'rV[R]_p * 'M[C]_p).
Definition middle (S : 'M[C]_p) : 'M[C]_(p + p) := block_mx (1%:M + S + adj S) 1%:M 1%:M 0.
Definition retraction (x eta : ext) : option ext :=
  if (n < p + p)%N then None else
  let tmp1 := cgemm0 1 (adj x) x in let tmp2 := cgemm0 1 (adj x) eta in
  let S := invmx tmp1 *m tmp2 in
  let Yp := cgemm (-1) x S 1 eta in
  let YYp := row_mx x Yp in
  let (YYp_Q, YYp_R) := QR YYp in
  let Z := YYp_R *m middle S *m adj YYp_R in
  let (V, lam) := EIG Z in
  if [exists i, rsubmx lam 0 i < 0] then None else
  let ZD := \row_i Num.sqrt (rsubmx lam 0 i) in
  let ZU := rsubmx V in
  let ZUD := ZU *m rdiag ZD in
  let Yp := cgemm0 1 YYp_Q ZUD in
  let XtY := cgemm0 1 (adj x) Yp in
  let: (U, _, Vt) := SVD XtY in
  let tmp1 := cgemm0 1 (adj Vt) (adj U) in
  Some (cgemm0 1 Yp tmp1).
End retraction.
End model.

(** CheckParams 87-106: the names are read by the index of the enumeration. *)
From Coq Require Import String.
Definition csf_index (m : csf_metric) : nat := match m with CSF_EUC => 0 | CSF_HGZ => 1 end%N.
Definition csf_names : seq string := [:: "CSFRANKQEUC"; "SFRANKQHGZ"]%string.
Definition printed_metric (m : csf_metric) : string := nth ""%string csf_names (csf_index m).
