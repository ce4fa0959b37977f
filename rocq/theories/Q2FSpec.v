(** What the theorems about matrices of fixed rank in two factors speak of; [inner], [orthonormal],
    [is_hhr], [is_qr], [is_svd] and [vdot] are those of StiefelSpec.v, [is_chol] that of SPDSpec.v,
    [full_rank] that of SymFRSpec.v. *)
From mathcomp Require Import all_ssreflect all_algebra.
From Verif Require Import StiefelSpec SPDSpec SymFRSpec Q2FModel.
Import GRing.Theory Num.Theory.
Set Implicit Arguments.
Unset Strict Implicit.
Local Open Scope ring_scope.

Section spec.
Variables (R : rcfType) (r a b : nat).
Local Notation vec := (pair_ R r a b).
Implicit Types x eta xi : vec.
(** Both factors have full rank: a point of the manifold. *)
Definition is_point x := full_rank (fst_ x) /\ full_rank (snd_ x).
(** The represented matrix, and its derivative in the direction of eta. *)
Definition product x : 'M[R]_(r + a, r + b) := fst_ x *m (snd_ x)^T.
Definition lift x eta : 'M[R]_(r + a, r + b) := fst_ eta *m (snd_ x)^T + fst_ x *m (snd_ eta)^T.
(** Vectors, factor by factor. *)
Definition addp eta xi : vec := Pair (fst_ eta + fst_ xi) (snd_ eta + snd_ xi).
Definition scalep (t : R) eta : vec := Pair (t *: fst_ eta) (t *: snd_ eta).
Definition subp eta xi : vec := addp eta (scalep (-1) xi).
Definition zerop : vec := Pair 0 0.
Definition pairing eta xi : R := inner (fst_ eta) (fst_ xi) + inner (snd_ eta) (snd_ xi).
(** The directions of the orbit (G M, H M^-T) of x under invertible matrices. *)
Definition vertical x eta := exists W : 'M[R]_r, eta = Pair (fst_ x *m W) (- (snd_ x *m W^T)).
(** The horizontal space of the header file: (G K + Z1, H K^T + Z2), Z1 and Z2 orthogonal to the
    ranges. *)
Definition horizontal x eta := exists (K : 'M[R]_r) Z1 Z2, [/\ (fst_ x)^T *m Z1 = 0, (snd_ x)^T *m Z2 = 0,
  fst_ eta = fst_ x *m K + Z1 & snd_ eta = snd_ x *m K^T + Z2].
(** The derivative of a function of the represented matrix whose gradient is E. *)
Definition egrad_of x (E : 'M[R]_(r + a, r + b)) : vec := Pair (E *m snd_ x) (E^T *m fst_ x).
(** ... and its derivative when x moves along eta and E along D. *)
Definition egrad_diff x eta (E D : 'M[R]_(r + a, r + b)) : vec :=
  addp (egrad_of x D) (Pair (E *m snd_ eta) (E^T *m fst_ eta)).
Definition invariant_at x egf := forall v, vertical x v -> pairing egf v = 0.
(** A matrix normal to the set of matrices of rank r. *)
Definition normal_at x (A : 'M[R]_(r + a, r + b)) := forall th, inner A (lift x th) = 0.
(** The Cholesky routine is right on positive definite matrices. *)
Definition chol_ok (CHOL : 'M[R]_r -> 'M[R]_r) := forall A, posdef A -> is_chol A (CHOL A).
(** A singular value decomposition with the values in descending order, as gesdd_ returns it. *)
Definition svd_desc n (SVD : 'M[R]_n -> 'M[R]_n * 'rV[R]_n * 'M[R]_n) A :=
  svd_at SVD A /\ forall i j : 'I_n, (i <= j)%N -> (SVD A).1.2 0 j <= (SVD A).1.2 0 i.
End spec.
