(** What the theorems about the phase retrieval problem speak of; [adj], [rscale], [cinner] and
    [unitary] are those of CStieSpec.v, [gram] and [invariant_at] those of CSymFRSpec.v. *)
From mathcomp Require Import all_ssreflect all_algebra.
From mathcomp.real_closed Require Import complex.
From Verif Require Import CStieSpec CSymFRSpec.
Import GRing.Theory Num.Theory.
Set Implicit Arguments.
Unset Strict Implicit.
Local Open Scope ring_scope.
Local Open Scope complex_scope.

Section spec.
Variables (R : rcfType) (n1 n2 l : nat).
Local Notation C := R[i].
Local Notation re := (@complex.Re R).
Local Notation im := (@complex.Im R).
Local Notation n := (n1 * n2)%N.
(** A primitive n-th root of unity of modulus one, such as exp(-2 pi i / n). *)
Definition unit_root (m : nat) (w : C) := m.-primitive_root w /\ conjc w * w = 1.
(** The linear map of the i-th mask: multiply the image by the mask, then apply the Fourier transform
    of n1 x n2 images, divided by the square root of n; pixel k is in row k mod n1 and column k / n1. *)
Definition sensing (w1 w2 : C) (mask : 'cV[C]_n) : 'M[C]_n := \matrix_(k, k')
  (w1 ^+ ((k %% n1) * (k' %% n1)) * w2 ^+ ((k %/ n1) * (k' %/ n1)) * mask k' 0 / (Num.sqrt n%:R)%:C).
(** The predicted intensity of sample k: the k-th diagonal entry of Z X Z^H. *)
Definition intensity (w1 w2 : C) (mask : 'cV[C]_n) (X : 'M[C]_n) (k : 'I_n) : R :=
  re ((sensing w1 w2 mask *m X *m adj (sensing w1 w2 mask)) k k).
(** The squared norm of the data. *)
Definition energy (b : 'I_l -> 'cV[R]_n) : R := \sum_i \sum_k b i k 0 ^+ 2.
(** The function of the n x n matrix X that the problem minimises. *)
Definition misfit (w1 w2 : C) (masks : 'I_l -> 'cV[C]_n) (b : 'I_l -> 'cV[R]_n) (kappa : R) (X : 'M[C]_n) : R :=
  (\sum_i \sum_k (intensity w1 w2 (masks i) X k - b i k 0) ^+ 2) / energy b + kappa * re (\tr X).
End spec.
