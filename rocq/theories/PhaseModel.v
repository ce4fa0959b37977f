(** Model of the phase retrieval problem, Problems/CSFRQPhaseRetrieval.cpp, and of the two-dimensional
    Fourier transform it uses, Element::FFT2D, Manifolds/Element.cpp 1980-2001.

    Exact arithmetic over the complex numbers of a real closed field, as in CStieModel.v, whose [cdot] is
    used.  A variable is an n x r complex matrix with n = n1 n2; entry k = a + b n1 of a column is the
    entry (a, b) of an n1 x n2 image.  The m = n l rows of ZY are indexed by (i, k), which the code
    stores at i n + k, and so are the entries of b, cD and cdD.  FFTW is taken at its documentation:
    the unnormalised sum over the powers of a root of unity, [w1] and [w2] being exp(-2 pi i / n1)
    and exp(-2 pi i / n2) for FFTW_FORWARD and their conjugates for FFTW_BACKWARD; the code passes
    (n2, n1) since FFTW is row-major.  The fields cD and ZY of x, which f stores, are recomputed.  The
    code divides by b.DotProduct(b), here with the inverse of the field, so the theorems about the
    result assume that it is not zero. *)
From mathcomp Require Import all_ssreflect all_algebra.
From mathcomp.real_closed Require Import complex.
From Verif Require Import StiefelModel CStieSpec CStieModel.
Import GRing.Theory Num.Theory.
Set Implicit Arguments.
Unset Strict Implicit.
Local Open Scope ring_scope.
Local Open Scope complex_scope.

(** FFTW_FORWARD and FFTW_BACKWARD. *)
Inductive direction := FORWARD | BACKWARD.

Section model.
Variables (R : rcfType) (n1 n2 l r : nat).
Local Notation C := R[i].
Local Notation re := (@complex.Re R).
Local Notation im := (@complex.Im R).
Local Notation n := (n1 * n2)%N.
Variables (w1 w2 : C).

(** Element::Reshape 1810-1825, column-major: entry (a, b) is at a + b n1. *)
Lemma idx_lt (a : 'I_n1) (b : 'I_n2) : (a + b * n1 < n)%N.
Proof.
case: a b => a Ha [b Hb] /=; apply: (@leq_trans (n1 + b * n1)); first by rewrite ltn_add2r.
by rewrite -mulSn mulnC leq_mul2l Hb orbT.
Qed.
Lemma pos_l (k : 'I_n) : (0 < n1)%N. Proof. by case: n1 k => [[]|]. Qed.
Lemma row_lt (k : 'I_n) : (k %% n1 < n1)%N. Proof. exact: ltn_pmod (pos_l k). Qed.
Lemma col_lt (k : 'I_n) : (k %/ n1 < n2)%N. Proof. by case: k (pos_l k) => k Hk H /=; rewrite ltn_divLR // mulnC. Qed.
Definition reshape (v : 'cV[C]_n) : 'M[C]_(n1, n2) := \matrix_(a, b) v (Ordinal (idx_lt a b)) 0.
Definition unshape (A : 'M[C]_(n1, n2)) : 'cV[C]_n := \col_k A (Ordinal (row_lt k)) (Ordinal (col_lt k)).

(** Element::FFT2D 1980-2001. *)
Definition root_of (d : direction) (w : C) : C := match d with FORWARD => w | BACKWARD => conjc w end.
Definition fft2d (d : direction) (A : 'M[C]_(n1, n2)) : 'M[C]_(n1, n2) :=
  \matrix_(a, b) \sum_(c < n1) \sum_(e < n2) A c e * root_of d w1 ^+ (a * c) * root_of d w2 ^+ (b * e).

Section problem.
Variables (masks : 'I_l -> 'cV[C]_n) (b : 'I_l -> 'cV[R]_n) (kappa : R).
Local Notation var := 'M[C]_(n, r).
(** 30. *)
Definition sqn : R := Num.sqrt n%:R.

(** The loops of f 40-58 and of EucHessianEta 156-171. *)
Definition masked (i : 'I_l) (x : var) (j : 'I_r) : 'cV[C]_n := \col_k
  (((re (masks i k 0) * re (x k j) - im (masks i k 0) * im (x k j)) / sqn) +i*
   ((im (masks i k 0) * re (x k j) + re (masks i k 0) * im (x k j)) / sqn)).
Definition sample (x : var) (i : 'I_l) : var :=
  \matrix_(k, j) unshape (fft2d FORWARD (reshape (masked i x j))) k 0.

(** f 62-69. *)
Definition cD_of (ZY : 'I_l -> var) (i : 'I_l) : 'cV[R]_n :=
  \col_k (\sum_j (re (ZY i k j) * re (ZY i k j) + im (ZY i k j) * im (ZY i k j)) - b i k 0).
(** DotProduct of vectors of length m. *)
Definition dot_m (u v : 'I_l -> 'cV[R]_n) : R := \sum_i \sum_k u i k 0 * v i k 0.
(** f 26-79. *)
Definition cost (x : var) : R :=
  let ZY := sample x in let cD := cD_of ZY in
  let result := dot_m cD cD / dot_m b b in
  let tmpfn := cdot x x in
  if kappa == 0 then result else result + kappa * tmpfn.

(** GetRealToComplex and GetDiagTimesM, Element.cpp 2529-2541 and 1559-1588. *)
Definition diag_times (d : 'I_l -> 'cV[R]_n) (M : 'I_l -> var) (i : 'I_l) : var := \matrix_(k, j)
  ((re (M i k j) * d i k 0 - im (M i k j) * 0) +i* (re (M i k j) * 0 + im (M i k j) * d i k 0)).
(** The loops of EucGrad 117-134 and of EucHessianEta 178-194. *)
Definition gfi (M : 'I_l -> var) (i : 'I_l) : var := \matrix_(k, j)
  (let tmpv := unshape (fft2d BACKWARD (reshape (\col_k M i k j))) k 0 in
   let tmpv := ((1 / sqn) * re tmpv) +i* ((1 / sqn) * im tmpv) in
   (re tmpv * re (masks i k 0) + im tmpv * im (masks i k 0)) +i*
   (im tmpv * re (masks i k 0) - re tmpv * im (masks i k 0))).
Definition push_back (M : 'I_l -> var) : var := \sum_i gfi M i.
(** EucGrad 104-142. *)
Definition egrad (x : var) : var :=
  let ZY := sample x in let cD := cD_of ZY in
  let DZY := diag_times cD ZY in
  let result := push_back DZY in
  let result := (4%:R / dot_m b b)%:C *: result in
  if kappa != 0 then (2%:R * kappa)%:C *: x + result else result.
(** EucHessianEta 144-198; GetColDotProducts, Element.cpp 2512-2527, multiplies the 2 r real
    numbers of a row of Zetax and of ZY, conjugated by GetTranspose. *)
Definition row_dots (M N : 'I_l -> var) (i : 'I_l) : 'cV[R]_n := \col_k
  \sum_j (re (conjc (M i k j)) * re (conjc (N i k j)) + im (conjc (M i k j)) * im (conjc (N i k j))).
Definition ehess (x etax : var) : var :=
  let ZY := sample x in let cD := cD_of ZY in
  let Zetax := sample etax in
  let cdD := fun i => 2%:R *: row_dots Zetax ZY i in
  let dDZYaddDZeta := fun i => diag_times cdD ZY i + diag_times cD Zetax i in
  let result := push_back dDZYaddDZeta in
  let result := (4%:R / dot_m b b)%:C *: result in
  (2%:R * kappa)%:C *: etax + result.
End problem.
End model.
