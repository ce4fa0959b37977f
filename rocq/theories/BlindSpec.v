(** What the theorems about blind deconvolution speak of; [adj], [rscale], [cinner] and [unitary] are
    those of CStieSpec.v. *)
From mathcomp Require Import all_ssreflect all_algebra.
From mathcomp.real_closed Require Import complex.
From Verif Require Import CStieSpec.
Import Order.TTheory GRing.Theory Num.Theory.
Set Implicit Arguments.
Unset Strict Implicit.
Local Open Scope ring_scope.
Local Open Scope complex_scope.

Section spec.
Variables (R : rcfType) (n1 n2 N : nat).
Local Notation C := R[i].
Local Notation re := (@complex.Re R).
Local Notation im := (@complex.Im R).
Local Notation L := (n1 * n2)%N.
(** The matrix of the two-dimensional Fourier transform; pixel k is in row k mod n1 and column k / n1. *)
Definition dft2 (w1 w2 : C) : 'M[C]_L := \matrix_(k, k')
  (w1 ^+ ((k %% n1) * (k' %% n1)) * w2 ^+ ((k %/ n1) * (k' %/ n1))).
(** The wavelet transform is an isometry, and the inverse transform inverts it. *)
Definition wavelet (haar ihaar : 'M[C]_L) := unitary haar /\ haar *m ihaar = 1%:M.
(** The objective of the header file,
    |y - diag(F B h (conj F H C m)^* )|^2 + rho sum_i max(L |b_i^* h|^2 |m|^2 / (8 d^2 mu^2) - 1, 0)^2,
    with X = h m^*. *)
Definition sqmod (z : C) : R := re z ^+ 2 + im z ^+ 2.
Definition misfit (w1 w2 : C) (ihaar : 'M[C]_L) (B : 'M[C]_(L, N)) (Cm : 'M[C]_L) (y : 'cV[C]_L) (X : 'M[C]_(N, L)) : R :=
  \sum_i sqmod (y i 0 - (dft2 w1 w2 *m B *m X *m adj (adj (dft2 w1 w2) *m ihaar *m Cm)) i i).
Definition penalty (w1 w2 : C) (B : 'M[C]_(L, N)) (rho d mu : R) (h : 'cV[C]_N) (m : 'cV[C]_L) : R :=
  rho * \sum_i Num.max (L%:R * sqmod ((dft2 w1 w2 *m B *m h) i 0) * cinner m m / (8%:R * d ^+ 2 * mu ^+ 2) - 1) 0 ^+ 2.
(** The inner product of the two factors. *)
Definition inner2 (a b : 'cV[C]_N * 'cV[C]_L) : R := cinner a.1 b.1 + cinner a.2 b.2.
(** f has slope c at t = 0, with an error of second order. *)
Definition slope (f : R -> R) (c : R) := exists K : R, forall t : R, `|t| <= 1 -> `|f t - f 0 - t * c| <= K * t ^+ 2.
End spec.
