(** Model of the blind deconvolution problem, Problems/CFRankQ2FBlindDecon2D.cpp, on the complex
    two-factor manifold with r = 1.

    For r > 1 the element B U has L r entries and Reshape(n1, n2) 36, 130 stops at its assertion
    (Element.cpp 1820), so r = 1 is the only case that runs.  Exact arithmetic and FFT2D as in
    PhaseModel.v; GetFFT2D, Element.cpp 1955-1978, is FFT2D into a new element.  The sparse
    matrices B and C are matrices (their products are the subject of SparseModel).  GetHaarFWT and GetInvHaarFWT of a
    column are the matrices [haar] and [ihaar]; HaarModel.v models their loops, and C10 proves that the
    first is an isometry that the second inverts.  The penalty reads 2 L numbers of V 60-62, so V
    has L entries, as the header requires.  The fields that f stores are recomputed. *)
From mathcomp Require Import all_ssreflect all_algebra.
From mathcomp.real_closed Require Import complex.
From Verif Require Import StiefelModel CStieSpec CStieModel PhaseModel.
Import GRing.Theory Num.Theory.
Set Implicit Arguments.
Unset Strict Implicit.
Local Open Scope ring_scope.
Local Open Scope complex_scope.

Section model.
Variables (R : rcfType) (n1 n2 N : nat).
Local Notation C := R[i].
Local Notation re := (@complex.Re R).
Local Notation im := (@complex.Im R).
Local Notation L := (n1 * n2)%N.
Variables (w1 w2 : C) (haar ihaar : 'M[C]_L) (B : 'M[C]_(L, N)) (Cm : 'M[C]_L).
Variables (y : 'cV[C]_L) (rho d mu : R).

(** 36 and 130. *)
Definition FBU_of (U : 'cV[C]_N) : 'cV[C]_L := unshape (fft2d w1 w2 FORWARD (reshape (B *m U))).
Definition FCV_of (V : 'cV[C]_L) : 'cV[C]_L := unshape (fft2d w1 w2 BACKWARD (reshape (ihaar *m (Cm *m V)))).
(** 42-46. *)
Definition residual (FBU FCV : 'cV[C]_L) : 'cV[C]_L := \col_i
  ((re (y i 0) - (re (FBU i 0) * re (FCV i 0) + im (FBU i 0) * im (FCV i 0))) +i*
   (im (y i 0) - (im (FBU i 0) * re (FCV i 0) - re (FBU i 0) * im (FCV i 0)))).
(** 51 and 101. *)
Definition scale_of : R := L%:R / 8%:R / d / d / mu / mu.
(** 55-62: the squared row norms of FBU, and the squared norm of V. *)
Definition rownorm2 (FBU : 'cV[C]_L) (i : 'I_L) : R := re (FBU i 0) * re (FBU i 0) + im (FBU i 0) * im (FBU i 0).
Definition norm2V (V : 'cV[C]_L) : R := cdot V V.
(** 67, 104, 112. *)
Definition excess (FBU V : 'cV[C]_L) (i : 'I_L) : R :=
  if scale_of * rownorm2 FBU i * norm2V V - 1 < 0 then 0 else scale_of * rownorm2 FBU i * norm2V V - 1.
(** f 33-80. *)
Definition cost (U : 'cV[C]_N) (V : 'cV[C]_L) : R :=
  let FBU := FBU_of U in let FCV := FCV_of V in
  let ymdiagBXC := residual FBU FCV in
  let penalty := if rho != 0 then \sum_i rho * excess FBU V i * excess FBU V i else 0 in
  cdot ymdiagBXC ymdiagBXC + penalty.
(** GetDiagTimesM of a column, Element.cpp 1575-1585, GetConj and GetHadamardProduct. *)
Definition times (D M : 'cV[C]_L) : 'cV[C]_L := \col_i
  ((re (M i 0) * re (D i 0) - im (M i 0) * im (D i 0)) +i* (re (M i 0) * im (D i 0) + im (M i 0) * re (D i 0))).
Definition cj (D : 'cV[C]_L) : 'cV[C]_L := \col_i (re (D i 0) +i* (- im (D i 0))).
Definition had (D M : 'cV[C]_L) : 'cV[C]_L := \col_i (D i 0 * M i 0).
(** 90, 107, 135-136: back to the variable U; 92, 139-140: back to the variable V. *)
Definition to_U (M : 'cV[C]_L) : 'cV[C]_N := adj (adj (unshape (fft2d w1 w2 BACKWARD (reshape M))) *m B).
Definition to_V (M : 'cV[C]_L) : 'cV[C]_L := adj (adj (haar *m unshape (fft2d w1 w2 FORWARD (reshape M))) *m Cm).
(** EucGrad 82-120. *)
Definition egrad (U : 'cV[C]_N) (V : 'cV[C]_L) : 'cV[C]_N * 'cV[C]_L :=
  let FBU := FBU_of U in let FCV := FCV_of V in
  let ymdiagBXC := residual FBU FCV in
  let EGFV := (- 2%:R)%:C *: to_U (times ymdiagBXC FCV) in
  let EGFTU := (- 2%:R)%:C *: to_V (times (cj ymdiagBXC) FBU) in
  if rho != 0 then
    let coef i := 2%:R * scale_of * rho * 2%:R * excess FBU V i * norm2V V in
    let DFBU := \col_i ((coef i)%:C * FBU i 0) in
    let EGFV := EGFV + to_U DFBU in
    let coef2 := \sum_i 2%:R * scale_of * rho * rownorm2 FBU i * 2%:R * excess FBU V i in
    (EGFV, EGFTU + coef2%:C *: V)
  else (EGFV, EGFTU).
(** EucHessianEta 122-144, which leaves the penalty out. *)
Definition ehess (U : 'cV[C]_N) (V : 'cV[C]_L) (dU : 'cV[C]_N) (dV : 'cV[C]_L) : 'cV[C]_N * 'cV[C]_L :=
  let FBU := FBU_of U in let FCV := FCV_of V in
  let ymdiagBXC := residual FBU FCV in
  let FBdU := FBU_of dU in let FCdV := FCV_of dV in
  let dDBUVC := had FBU (cj FCdV) + had FBdU (cj FCV) in
  let dJ1V := 2%:R%:C *: to_U (times dDBUVC FCV) in
  let J1dV := (- 2%:R)%:C *: to_U (times ymdiagBXC FCdV) in
  let dJ1TU := 2%:R%:C *: to_V (times (cj dDBUVC) FBU) in
  let J1TdU := (- 2%:R)%:C *: to_V (times (cj ymdiagBXC) FBdU) in
  (dJ1V + J1dV, dJ1TU + J1TdU).
End model.
