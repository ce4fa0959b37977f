(** Model of the manifold of complex matrices of rank r as a quotient of pairs of factors,
    Manifolds/CFixedRankQ2F.cpp.

    Exact arithmetic over the complex numbers of a real closed field, as in CStieModel.v, whose [cdot],
    [cgemm], [cgemm0] and [cfix_rows] are used.  A point is a pair of factors (G, H) that represents
    G H^H; G has r + a and H has r + b rows.  GetTranspose of a complex element is the conjugate
    transpose.  What LAPACK computes (Cholesky, Householder QR, QR, SVD) is an argument.
    TriangleLinSol (Element.cpp 861-895) solves with L or L^H, here by [invmx].  The fields _L of the
    two factors are recomputed on every call of GenerateFieldsX 607-624 (the fields _LG and _LH it
    looks for are added to local copies only, ObtainIntr 110-111, 153 and 186); they are the values of
    [CHOL] here.  The fields beta and betaTReta of DiffRetraction 507-521 and messages are not
    modelled. *)
From mathcomp Require Import all_ssreflect all_algebra.
From mathcomp.real_closed Require Import complex.
From Verif Require Import StiefelModel CStieSpec CStieModel.
Import GRing.Theory Num.Theory.
Set Implicit Arguments.
Unset Strict Implicit.
Local Open Scope ring_scope.
Local Open Scope complex_scope.

Section model.
Variables (R : rcfType) (r a b : nat).
Local Notation C := R[i].
Local Notation re := (@complex.Re R).
Local Notation im := (@complex.Im R).
(** A point or a vector of the total space, constructor 8-22. *)
Record cpair := CPair { cfst : 'M[C]_(r + a, r); csnd : 'M[C]_(r + b, r) }.
Implicit Types x y eta xi : cpair.
Definition intr_dim : nat := 2 * ((r + a) + (r + b) - r) * r.
Variable CHOL : 'M[C]_r -> 'M[C]_r.

(** The two triangular solves that follow one another everywhere: L L^H X = B. *)
Definition cchol_solve q (L : 'M[C]_r) (B : 'M[C]_(r, q)) : 'M[C]_(r, q) := invmx (adj L) *m (invmx L *m B).
(** GenerateFieldsX 607-624. *)
Definition LG_of x : 'M[C]_r := CHOL (adj (cfst x) *m cfst x).
Definition LH_of x : 'M[C]_r := CHOL (adj (csnd x) *m csnd x).

(** ExtrProjection 58-83. *)
Definition projection x eta : cpair :=
  let LG := LG_of x in let LH := LH_of x in
  let tmp1 := cgemm0 1 (adj (csnd x)) (csnd eta) in
  let tmp1 := cchol_solve LH tmp1 in
  let tmp2 := cgemm0 1 (adj (cfst x)) (cfst eta) in
  let tmp2 := cchol_solve LG tmp2 in
  let Lambda := (2%:R^-1)%:C *: (adj tmp1 - tmp2) in
  CPair (cgemm 1 (cfst x) Lambda 1 (cfst eta)) (cgemm (-1) (csnd x) (adj Lambda) 1 (csnd eta)).

(** Metric 85-106, extrinsic. *)
Definition metric x eta xi : R :=
  let G := cfst x in let H := csnd x in
  let tmp1 := cgemm0 1 (adj G) G in let tmp2 := cgemm0 1 (adj (csnd xi)) (csnd eta) in
  let result := 0 + cdot tmp1 tmp2 in
  let tmp1 := cgemm0 1 (adj H) H in let tmp2 := cgemm0 1 (adj (cfst eta)) (cfst xi) in
  let result := result + cdot tmp1 tmp2 in
  let tmp1 := cgemm0 1 (adj H) (csnd eta) in let tmp2 := cgemm0 1 (adj (cfst xi)) G in
  let result := result + cdot tmp1 tmp2 in
  let tmp1 := cgemm0 1 (adj (csnd xi)) H in let tmp2 := cgemm0 1 (adj G) (cfst eta) in
  result + cdot tmp1 tmp2.

(** The loops 138-152, 171-185, 294-307 and 323-336: the conjugate of the upper triangle, with the signs of the
    real parts of the diagonal. *)
Definition lower_factor (R' : 'M[C]_r) : 'M[C]_r :=
  \matrix_(j, i) (if (j < i)%N then 0 else let sign := if 0 <= re (R' i i) then 1 else -1 in
    (re (R' i j) * sign) +i* (- im (R' i j) * sign)).
(** ObtainIntr 108-230; [QG], [RG], [QH], [RH] are of the fields _HHR and _tau of the factors. *)
Definition rot q (Q : 'M[C]_(r + q)) (R' : 'M[C]_r) (eta : 'M[C]_(r + q, r)) : 'M[C]_(r + q, r) :=
  let tmp := adj Q *m eta in col_mx (cfix_rows R' (usubmx tmp)) (dsubmx tmp).
Definition obtain_intr QG RG QH RH eta : seq R :=
  let LG := lower_factor RG in let LH := lower_factor RH in
  let GtmpLH := rot QG RG (cfst eta) *m LH in
  let HtmpLG := rot QH RH (csnd eta) *m LG in
  flatten [seq [:: re (usubmx GtmpLH ij.2 ij.1) + re (usubmx HtmpLG ij.1 ij.2);
                   im (usubmx GtmpLH ij.2 ij.1) - im (usubmx HtmpLG ij.1 ij.2)] | ij <- lower_pairs r r] ++
  flatten [seq [:: re (dsubmx GtmpLH ij.2 ij.1); im (dsubmx GtmpLH ij.2 ij.1)] | ij <- lower_pairs r a] ++
  flatten [seq [:: re (dsubmx HtmpLG ij.2 ij.1); im (dsubmx HtmpLG ij.2 ij.1)] | ij <- lower_pairs r b].
(** ObtainExtr 232-349; idx counts two numbers for each step of the loops. *)
Definition obtain_extr QG RG QH RH (v : seq R) : cpair :=
  let at_ n i := nth 0 v (n + i.*2) +i* nth 0 v (n + i.*2.+1) in
  let z i j := at_ 0%N (index (i, j) (lower_pairs r r)) in
  let topG : 'M[C]_r := \matrix_(j, i) ((re (z i j) / 2%:R) +i* (im (z i j) / 2%:R)) in
  let topH : 'M[C]_r := \matrix_(i, j) ((re (z i j) / 2%:R) +i* (- (im (z i j) / 2%:R))) in
  let n0 := (size (lower_pairs r r)).*2 in
  let botG : 'M[C]_(a, r) := \matrix_(j, i) at_ n0 (index (i, j) (lower_pairs r a)) in
  let n1 := (n0 + (size (lower_pairs r a)).*2)%N in
  let botH : 'M[C]_(b, r) := \matrix_(j, i) at_ n1 (index (i, j) (lower_pairs r b)) in
  let etaG := QG *m col_mx (cfix_rows RG topG) botG in
  let LG := lower_factor RG in
  let etaH := QH *m col_mx (cfix_rows RH topH) botH in
  let LH := lower_factor RH in
  CPair (adj (invmx (adj LH) *m adj etaG)) (adj (invmx (adj LG) *m adj etaH)).

(** VectorTransport 358-371 and InverseVectorTransport 373-386 without HasHHR: the coordinates are
    copied; extrinsic vectors go through coordinates. *)
Definition transport_coords (v : seq R) : seq R := v.
Definition transport_extr QGx RGx QHx RHx QGy RGy QHy RHy xi : cpair :=
  obtain_extr QGy RGy QHy RHy (obtain_intr QGx RGx QHx RHx xi).
(** 384-385: both calls are given x. *)
Definition inverse_transport_extr QGx RGx QHx RHx (QGy : 'M[C]_(r + a)) (RGy : 'M[C]_r) (QHy : 'M[C]_(r + b)) (RHy : 'M[C]_r) xiy : cpair :=
  obtain_extr QGx RGx QHx RHx (obtain_intr QGx RGx QHx RHx xiy).

(** Retraction 410-424: that of the two Euclidean factors. *)
Definition retraction x eta : cpair := CPair (cfst x + cfst eta) (csnd x + csnd eta).
(** DiffRetraction 488-505, extrinsic. *)
Definition diff_retraction y xi : cpair := projection y xi.

(** ProjRetraction 426-486.  [QRa], [QRb] are QRDecom of matrices with at least as many rows as
    columns; otherwise S has fewer than 2r entries and the loop 470-473 leaves it, here [None].  The square
    root of a negative number is not a number; singular values are not negative.
    The entries of the field _S are real (Element.cpp 1329-1333). *)
Section proj_retraction.
Variables (QRa : 'M[C]_(r + a, r + r) -> 'M[C]_(r + a, r + r) * 'M[C]_(r + r))
  (QRb : 'M[C]_(r + b, r + r) -> 'M[C]_(r + b, r + r) * 'M[C]_(r + r))
  (SVD : 'M[C]_(r + r) -> 'M[C]_(r + r) * 'rV[R]_(r + r) * 'M[C]_(r + r)).
Definition proj_retraction x eta : option cpair :=
  if (r + a < r + r)%N || (r + b < r + r)%N then None else
  let tmp1 := row_mx (cfst x) (cfst eta) in
  let tmp2 := row_mx (csnd x) (csnd eta) in
  let SM : 'M[C]_(r + r) := block_mx 1%:M 1%:M 1%:M 0 in
  let (tmp1Q, tmp1R) := QRa tmp1 in
  let (tmp2Q, tmp2R) := QRb tmp2 in
  let M := tmp1R *m SM *m adj tmp2R in
  let: (U, sv, Vt) := SVD M in
  let sv : 'rV[R]_(r + r) := \row_i Num.sqrt (sv 0 i) in
  let sv := lsubmx sv in
  Some (CPair ((tmp1Q *m lsubmx U) *m rdiag sv) ((tmp2Q *m lsubmx (adj Vt)) *m rdiag sv)).
End proj_retraction.

(** EucGradToGrad 526-564. *)
Definition gradient x egf : cpair :=
  let G := cfst x in let H := csnd x in
  let LG := LG_of x in let LH := LH_of x in
  let tmpG := adj (cchol_solve LH (adj (cfst egf))) in
  let resG := tmpG - (half R)%:C *: G *m cchol_solve LG (adj G *m tmpG) in
  let tmpH := adj (cchol_solve LG (adj (csnd egf))) in
  let resH := tmpH - (half R)%:C *: H *m cchol_solve LH (adj H *m tmpH) in
  CPair resG resH.

(** EucHvToHv 566-605; [egf] is the field EGrad. *)
Definition hessian x egf eta exix : cpair :=
  let G := cfst x in let H := csnd x in
  let dG := cfst eta in let dH := csnd eta in
  let LG := LG_of x in let LH := LH_of x in
  let tmpG := adj (cchol_solve LH (adj (cfst exix))) in
  let tmpG := tmpG - (half R)%:C *: G *m cchol_solve LG (adj G *m tmpG) in
  let tmpH := adj (cchol_solve LG (adj (csnd exix))) in
  let tmpH := tmpH - (half R)%:C *: H *m cchol_solve LH (adj H *m tmpH) in
  let tmp1 := cfst egf *m cchol_solve LH (adj (cchol_solve LH (adj dH *m H))) in
  let tmp1 := G *m cchol_solve LG (adj G *m tmp1) - tmp1 in
  let tmp1 := tmp1 - (half R)%:C *: G *m cchol_solve LG (adj (cchol_solve LH (adj dH *m csnd egf))) in
  let resG := tmpG + tmp1 in
  let tmp2 := csnd egf *m cchol_solve LG (adj (cchol_solve LG (adj dG *m G))) in
  let tmp2 := H *m cchol_solve LH (adj H *m tmp2) - tmp2 in
  let tmp2 := tmp2 - (half R)%:C *: H *m cchol_solve LH (adj (cchol_solve LG (adj dG *m cfst egf))) in
  let resH := tmpH + tmp2 in
  projection x (CPair resG resH).
End model.
