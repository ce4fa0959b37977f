(** Rank and Cholesky factors of complex matrices, for the theorems about complex matrices of fixed
    rank; the rest is in CStieSpec.v. *)
From mathcomp Require Import all_ssreflect all_algebra.
From mathcomp.real_closed Require Import complex.
From Verif Require Import CStieSpec.
Import GRing.Theory Num.Theory.
Set Implicit Arguments.
Unset Strict Implicit.
Local Open Scope ring_scope.
Local Open Scope complex_scope.

Section spec.
Variable R : rcfType.
Local Notation C := R[i].
(** Independent columns. *)
Definition cfull_rank m n (x : 'M[C]_(m, n)) := forall v : 'cV[C]_n, x *m v = 0 -> v = 0.
(** A lower triangular factor with a real, positive diagonal. *)
Record is_cchol n (x L : 'M[C]_n) : Prop :=
  { cchol_product : x = L *m adj L;
    cchol_lower : forall i j : 'I_n, (i < j)%N -> L i j = 0;
    cchol_diag : forall i, complex.Im (L i i) = 0 /\ 0 < complex.Re (L i i) }.
(** The Cholesky routine is right on positive definite matrices. *)
Definition cchol_ok n (CHOL : 'M[C]_n -> 'M[C]_n) := forall A, cposdef A -> is_cchol A (CHOL A).
(** A singular value decomposition with the values in descending order, as gesvd_ returns it. *)
Definition csvd_desc n (SVD : 'M[C]_n -> 'M[C]_n * 'rV[R]_n * 'M[C]_n) A :=
  csvd_at SVD A /\ forall i j : 'I_n, (i <= j)%N -> (SVD A).1.2 0 j <= (SVD A).1.2 0 i.
End spec.
