(** What the theorems about Hermitian positive semidefinite matrices of fixed rank speak of;
    [adj], [cinner], [hermitian], [skew_hermitian], [unitary], [is_csvd], [is_cqr] and [is_chhr] are
    those of CStieSpec.v, [cfull_rank] that of CFrSpec.v. *)
From mathcomp Require Import all_ssreflect all_algebra.
From mathcomp.real_closed Require Import complex.
From Verif Require Import CStieSpec CFrSpec CSymFRModel.
Import GRing.Theory Num.Theory.
Set Implicit Arguments.
Unset Strict Implicit.
Local Open Scope ring_scope.
Local Open Scope complex_scope.

Section spec.
Variable R : rcfType.
Local Notation C := R[i].
Local Notation re := (@complex.Re R).
(** Positive semidefinite. *)
Definition cpsd n (A : 'M[C]_n) := hermitian A /\ forall v : 'cV[C]_n, 0 <= re ((adj v *m A *m v) 0 0).
(** The represented matrix, and its derivative in the direction of eta. *)
Definition gram m n (x : 'M[C]_(m, n)) := x *m adj x.
Definition lift m n (x eta : 'M[C]_(m, n)) := eta *m adj x + x *m adj eta.
(** The directions in which the represented matrix does not change: those of the orbit of x under
    unitary matrices. *)
Definition vertical m n (x v : 'M[C]_(m, n)) := exists W : 'M[C]_n, skew_hermitian W /\ v = x *m W.
(** The inner products of the header file: real parts of traces. *)
Definition g_of (s : csf_metric) m n (x eta xi : 'M[C]_(m, n)) : R :=
  match s with
  | CSF_EUC => 2%:R * re (\tr (adj x *m eta *m adj x *m xi + adj x *m x *m adj eta *m xi))
  | CSF_HGZ => re (\tr (adj x *m x *m adj eta *m xi))
  end.
(** Orthogonal to the vertical vectors; the metric EUC vanishes on them, and the library takes
    the same complement as for HGZ. *)
Definition horizontal m n (x eta : 'M[C]_(m, n)) := forall v, vertical x v -> g_of CSF_HGZ x v eta = 0.
(** The derivative of a function of the represented matrix: it vanishes on the orbit. *)
Definition invariant_at m n (x g : 'M[C]_(m, n)) := forall v, vertical x v -> cinner g v = 0.
(** The derivative of the metric HGZ with respect to the point, in the direction of z. *)
Definition dg_hgz m n (x z eta xi : 'M[C]_(m, n)) : R := re (\tr ((adj z *m x + adj x *m z) *m adj eta *m xi)).
(** A matrix normal to the set of matrices of rank p at x x^H. *)
Definition normal_at m n (x : 'M[C]_(m, n)) (A : 'M[C]_m) := forall th, cinner A (lift x th) = 0.
(** An eigenvalue decomposition with the eigenvalues in ascending order, as heev_ returns it. *)
Record is_ceig_asc n (S V : 'M[C]_n) (lam : 'rV[R]_n) : Prop :=
  { ceig_asc_product : S = V *m rdiag lam *m adj V; ceig_asc_unitary : unitary V;
    ceig_asc_order : forall i j : 'I_n, (i <= j)%N -> lam 0 i <= lam 0 j }.
Definition ceig_asc n (EIG : 'M[C]_n -> 'M[C]_n * 'rV[R]_n) S := is_ceig_asc S (EIG S).1 (EIG S).2.
(** X and Y have the same value and derivative at t = 0. *)
Definition first_order m n (X Y : R -> 'M[C]_(m, n)) := forall e, 0 < e -> exists2 b, 0 < b &
  forall t, `|t| < b -> cinner (X t - Y t) (X t - Y t) <= e * t ^+ 2.
(** LAPACK's routines return the decompositions that their documentation promises. *)
Definition routines p k (QR : 'M[C]_(p + k, p + p) -> 'M[C]_(p + k, p + p) * 'M[C]_(p + p))
  (EIG : 'M[C]_(p + p) -> 'M[C]_(p + p) * 'rV[R]_(p + p)) (SVD : 'M[C]_p -> 'M[C]_p * 'rV[R]_p * 'M[C]_p) :=
  (forall A, cqr_at QR A) /\ (forall S, hermitian S -> ceig_asc EIG S) /\ (forall A, csvd_at SVD A).
End spec.
(** The names of the metrics, CSymFixedRankQ.h 38. *)
From Coq Require Import String.
Definition metric_name (s : csf_metric) : string :=
  match s with CSF_EUC => "CSFRANKQEUC" | CSF_HGZ => "CSFRANKQHGZ" end%string.
