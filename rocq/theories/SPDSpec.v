(** What the theorems about symmetric positive definite matrices speak of; [inner], [symmetric],
    [posdef], [vdot], [orthonormal] are those of StiefelSpec.v. *)
From mathcomp Require Import all_ssreflect all_algebra.
From Verif Require Import StiefelSpec.
Import GRing.Theory Num.Theory.
Set Implicit Arguments.
Unset Strict Implicit.
Local Open Scope ring_scope.

Section spec.
Variables (R : rcfType) (n : nat).
(** The Cholesky factor of x. *)
Record is_chol (x L : 'M[R]_n) : Prop :=
  { chol_product : x = L *m L^T;
    chol_lower : forall i j : 'I_n, (i < j)%N -> L i j = 0;
    chol_diag : forall i, 0 < L i i }.
(** An eigenvalue decomposition of S. *)
Record is_eig (S V : 'M[R]_n) (lam : 'rV[R]_n) : Prop :=
  { eig_product : S = V *m diag_mx lam *m V^T;
    eig_orthonormal : orthonormal V }.
Definition eig_at (EIG : 'M[R]_n -> 'M[R]_n * 'rV[R]_n) S := is_eig S (EIG S).1 (EIG S).2.
(** The affine-invariant inner product at x. *)
Definition af (x eta xi : 'M[R]_n) : R := \tr (invmx x *m eta *m invmx x *m xi).
End spec.
