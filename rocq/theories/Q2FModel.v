(** Model of the manifold of matrices of rank r as a quotient of pairs of factors,
    Manifolds/FixedRankQ2F.cpp.

    Exact arithmetic over a real closed field, as in StiefelModel.v, whose [dot], [gemm], [gemm0],
    [half], [fix_rows] and [lower_pairs] are used.  A point is a pair of factors (G, H) that represents
    G H^T; G has r + a and H has r + b rows.  What LAPACK computes (Cholesky, Householder QR, QR, SVD)
    is an argument.  TriangleLinSol (Element.cpp 861-895) solves with L or L^T, here by [invmx].  The
    fields _L of the two factors are recomputed on every call of GenerateFieldsX 580-597 (the fields
    _LG and _LH it looks for are added to local copies only, ObtainIntr 105-106, 146 and 177); they are
    the values of [CHOL] here.  The fields beta and betaTReta of DiffRetraction 479-493 and messages are
    not modelled. *)
From mathcomp Require Import all_ssreflect all_algebra.
From Verif Require Import StiefelModel.
Import GRing.Theory Num.Theory.
Set Implicit Arguments.
Unset Strict Implicit.
Local Open Scope ring_scope.

Section model.
Variables (R : rcfType) (r a b : nat).
(** A point or a vector of the total space, constructor 7-19. *)
Record pair_ := Pair { fst_ : 'M[R]_(r + a, r); snd_ : 'M[R]_(r + b, r) }.
Implicit Types x y eta xi : pair_.
Definition intr_dim : nat := ((r + a) + (r + b) - r) * r.
Variable CHOL : 'M[R]_r -> 'M[R]_r.

(** The two triangular solves that follow one another everywhere: L L^T X = B. *)
Definition chol_solve q (L : 'M[R]_r) (B : 'M[R]_(r, q)) : 'M[R]_(r, q) := invmx L^T *m (invmx L *m B).
(** GenerateFieldsX 580-597. *)
Definition LG_of x : 'M[R]_r := CHOL ((fst_ x)^T *m fst_ x).
Definition LH_of x : 'M[R]_r := CHOL ((snd_ x)^T *m snd_ x).

(** ExtrProjection 55-78. *)
Definition projection x eta : pair_ :=
  let LG := LG_of x in let LH := LH_of x in
  let tmp1 := gemm0 1 (snd_ x)^T (snd_ eta) in
  let tmp1 := chol_solve LH tmp1 in
  let tmp2 := gemm0 1 (fst_ x)^T (fst_ eta) in
  let tmp2 := chol_solve LG tmp2 in
  let Lambda := 2%:R^-1 *: (tmp1^T - tmp2) in
  Pair (gemm 1 (fst_ x) Lambda 1 (fst_ eta)) (gemm (-1) (snd_ x) Lambda^T 1 (snd_ eta)).

(** Metric 80-101, extrinsic. *)
Definition metric x eta xi : R :=
  let G := fst_ x in let H := snd_ x in
  let tmp1 := gemm0 1 G^T G in let tmp2 := gemm0 1 (snd_ xi)^T (snd_ eta) in
  let result := 0 + dot tmp1 tmp2 in
  let tmp1 := gemm0 1 H^T H in let tmp2 := gemm0 1 (fst_ eta)^T (fst_ xi) in
  let result := result + dot tmp1 tmp2 in
  let tmp1 := gemm0 1 H^T (snd_ eta) in let tmp2 := gemm0 1 (fst_ xi)^T G in
  let result := result + dot tmp1 tmp2 in
  let tmp1 := gemm0 1 (snd_ xi)^T H in let tmp2 := gemm0 1 G^T (fst_ eta) in
  result + dot tmp1 tmp2.

(** The loops 134-145, 165-176, 278-289 and 304-315. *)
Definition lower_factor (R' : 'M[R]_r) : 'M[R]_r :=
  \matrix_(j, i) (if (j < i)%N then 0 else R' i j * (if 0 <= R' i i then 1 else -1)).
(** ObtainIntr 103-214; [QG], [RG], [QH], [RH] are of the fields _HHR and _tau of the factors. *)
Definition rot q (Q : 'M[R]_(r + q)) (R' : 'M[R]_r) (eta : 'M[R]_(r + q, r)) : 'M[R]_(r + q, r) :=
  let tmp := Q^T *m eta in col_mx (fix_rows R' (usubmx tmp)) (dsubmx tmp).
Definition obtain_intr QG RG QH RH eta : seq R :=
  let LG := lower_factor RG in let LH := lower_factor RH in
  let GtmpLH := rot QG RG (fst_ eta) *m LH in
  let HtmpLG := rot QH RH (snd_ eta) *m LG in
  [seq usubmx GtmpLH ij.2 ij.1 + usubmx HtmpLG ij.1 ij.2 | ij <- lower_pairs r r] ++
  [seq dsubmx GtmpLH ij.2 ij.1 | ij <- lower_pairs r a] ++
  [seq dsubmx HtmpLG ij.2 ij.1 | ij <- lower_pairs r b].
(** ObtainExtr 216-322; idx counts the steps of the loops. *)
Definition obtain_extr QG RG QH RH (v : seq R) : pair_ :=
  let at_ := fun i j => nth 0 v (index (i, j) (lower_pairs r r)) / 2%:R in
  let topG : 'M[R]_r := \matrix_(j, i) at_ i j in
  let topH : 'M[R]_r := \matrix_(i, j) at_ i j in
  let n0 := size (lower_pairs r r) in
  let botG : 'M[R]_(a, r) := \matrix_(j, i) nth 0 v (n0 + index (i, j) (lower_pairs r a)) in
  let n1 := (n0 + size (lower_pairs r a))%N in
  let botH : 'M[R]_(b, r) := \matrix_(j, i) nth 0 v (n1 + index (i, j) (lower_pairs r b)) in
  let etaG := QG *m col_mx (fix_rows RG topG) botG in
  let LG := lower_factor RG in
  let etaH := QH *m col_mx (fix_rows RH topH) botH in
  let LH := lower_factor RH in
  Pair ((invmx LH^T *m etaG^T)^T) ((invmx LG^T *m etaH^T)^T).

(** VectorTransport 331-343 and InverseVectorTransport 345-358 without HasHHR: the coordinates are
    copied; extrinsic vectors go through coordinates. *)
Definition transport_coords (v : seq R) : seq R := v.
Definition transport_extr QGx RGx QHx RHx QGy RGy QHy RHy xi : pair_ :=
  obtain_extr QGy RGy QHy RHy (obtain_intr QGx RGx QHx RHx xi).
(** 356-357: both calls are given x. *)
Definition inverse_transport_extr QGx RGx QHx RHx (QGy : 'M[R]_(r + a)) (RGy : 'M[R]_r) (QHy : 'M[R]_(r + b)) (RHy : 'M[R]_r) xiy : pair_ :=
  obtain_extr QGx RGx QHx RHx (obtain_intr QGx RGx QHx RHx xiy).

(** Retraction 382-396: that of the two Euclidean factors. *)
Definition retraction x eta : pair_ := Pair (fst_ x + fst_ eta) (snd_ x + snd_ eta).
(** DiffRetraction 460-477, extrinsic. *)
Definition diff_retraction y xi : pair_ := projection y xi.

(** ProjRetraction 398-458.  [QRa], [QRb] are QRDecom of matrices with at least as many rows as
    columns; otherwise S has fewer than 2r entries and the loop 442-445 leaves it, here [None].  The square
    root of a negative number is not a number; singular values are not negative. *)
Section proj_retraction.
Variables (QRa : 'M[R]_(r + a, r + r) -> 'M[R]_(r + a, r + r) * 'M[R]_(r + r))
  (QRb : 'M[R]_(r + b, r + r) -> 'M[R]_(r + b, r + r) * 'M[R]_(r + r))
  (SVD : 'M[R]_(r + r) -> 'M[R]_(r + r) * 'rV[R]_(r + r) * 'M[R]_(r + r)).
Definition proj_retraction x eta : option pair_ :=
  if (r + a < r + r)%N || (r + b < r + r)%N then None else
  let tmp1 := row_mx (fst_ x) (fst_ eta) in
  let tmp2 := row_mx (snd_ x) (snd_ eta) in
  let SM : 'M[R]_(r + r) := block_mx 1%:M 1%:M 1%:M 0 in
  let (tmp1Q, tmp1R) := QRa tmp1 in
  let (tmp2Q, tmp2R) := QRb tmp2 in
  let M := tmp1R *m SM *m tmp2R^T in
  let: (U, sv, Vt) := SVD M in
  let sv : 'rV[R]_(r + r) := \row_i Num.sqrt (sv 0 i) in
  let sv := lsubmx sv in
  Some (Pair ((tmp1Q *m lsubmx U) *m diag_mx sv) ((tmp2Q *m lsubmx Vt^T) *m diag_mx sv)).
End proj_retraction.

(** EucGradToGrad 498-537. *)
Definition gradient x egf : pair_ :=
  let G := fst_ x in let H := snd_ x in
  let LG := LG_of x in let LH := LH_of x in
  let tmpG := (chol_solve LH (fst_ egf)^T)^T in
  let resG := tmpG - half R *: G *m chol_solve LG (G^T *m tmpG) in
  let tmpH := (chol_solve LG (snd_ egf)^T)^T in
  let resH := tmpH - half R *: H *m chol_solve LH (H^T *m tmpH) in
  Pair resG resH.

(** EucHvToHv 539-578; [egf] is the field EGrad. *)
Definition hessian x egf eta exix : pair_ :=
  let G := fst_ x in let H := snd_ x in
  let dG := fst_ eta in let dH := snd_ eta in
  let LG := LG_of x in let LH := LH_of x in
  let tmpG := (chol_solve LH (fst_ exix)^T)^T in
  let tmpG := tmpG - half R *: G *m chol_solve LG (G^T *m tmpG) in
  let tmpH := (chol_solve LG (snd_ exix)^T)^T in
  let tmpH := tmpH - half R *: H *m chol_solve LH (H^T *m tmpH) in
  let tmp1 := fst_ egf *m chol_solve LH (chol_solve LH (dH^T *m H))^T in
  let tmp1 := G *m chol_solve LG (G^T *m tmp1) - tmp1 in
  let tmp1 := tmp1 - half R *: G *m chol_solve LG (chol_solve LH (dH^T *m snd_ egf))^T in
  let resG := tmpG + tmp1 in
  let tmp2 := snd_ egf *m chol_solve LG (chol_solve LG (dG^T *m G))^T in
  let tmp2 := H *m chol_solve LH (H^T *m tmp2) - tmp2 in
  let tmp2 := tmp2 - half R *: H *m chol_solve LH (chol_solve LG (dG^T *m fst_ egf))^T in
  let resH := tmpH + tmp2 in
  projection x (Pair resG resH).
End model.
