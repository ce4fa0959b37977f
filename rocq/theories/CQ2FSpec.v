(** What the theorems about complex matrices of fixed rank in two factors speak of; [adj], [cinner],
    [unitary], [is_chhr], [is_cqr] are those of CStieSpec.v, [cfull_rank] and [is_cchol] those of
    CFrSpec.v. *)
From mathcomp Require Import all_ssreflect all_algebra.
From mathcomp.real_closed Require Import complex.
From Verif Require Import CStieSpec CFrSpec CQ2FModel.
Import GRing.Theory Num.Theory.
Set Implicit Arguments.
Unset Strict Implicit.
Local Open Scope ring_scope.
Local Open Scope complex_scope.

Section spec.
Variables (R : rcfType) (r a b : nat).
Local Notation C := R[i].
Local Notation vec := (cpair R r a b).
Implicit Types x eta xi : vec.
(** Both factors have full rank: a point of the manifold. *)
Definition is_point x := cfull_rank (cfst x) /\ cfull_rank (csnd x).
(** The represented matrix, and its derivative in the direction of eta. *)
Definition product x : 'M[C]_(r + a, r + b) := cfst x *m adj (csnd x).
Definition lift x eta : 'M[C]_(r + a, r + b) := cfst eta *m adj (csnd x) + cfst x *m adj (csnd eta).
(** Vectors, factor by factor. *)
Definition addp eta xi : vec := CPair (cfst eta + cfst xi) (csnd eta + csnd xi).
Definition scalep (t : R) eta : vec := CPair (t%:C *: cfst eta) (t%:C *: csnd eta).
Definition subp eta xi : vec := addp eta (scalep (-1) xi).
Definition zerop : vec := CPair 0 0.
Definition pairing eta xi : R := cinner (cfst eta) (cfst xi) + cinner (csnd eta) (csnd xi).
(** The directions of the orbit (G M, H M^-H) of x under invertible matrices. *)
Definition vertical x eta := exists W : 'M[C]_r, eta = CPair (cfst x *m W) (- (csnd x *m adj W)).
(** The horizontal space of the header file: (G K + Z1, H K^H + Z2), Z1 and Z2 orthogonal to the
    ranges. *)
Definition horizontal x eta := exists (K : 'M[C]_r) Z1 Z2, [/\ adj (cfst x) *m Z1 = 0, adj (csnd x) *m Z2 = 0,
  cfst eta = cfst x *m K + Z1 & csnd eta = csnd x *m adj K + Z2].
(** The derivative of a function of the represented matrix whose gradient is E. *)
Definition egrad_of x (E : 'M[C]_(r + a, r + b)) : vec := CPair (E *m csnd x) (adj E *m cfst x).
(** ... and its derivative when x moves along eta and E along D. *)
Definition egrad_diff x eta (E D : 'M[C]_(r + a, r + b)) : vec :=
  addp (egrad_of x D) (CPair (E *m csnd eta) (adj E *m cfst eta)).
Definition invariant_at x egf := forall v, vertical x v -> pairing egf v = 0.
(** A matrix normal to the set of matrices of rank r. *)
Definition normal_at x (A : 'M[C]_(r + a, r + b)) := forall th, cinner A (lift x th) = 0.
End spec.
