(** What the theorems about matrices of fixed rank speak of; [inner] and [orthonormal] are those of
    StiefelSpec.v. *)
From mathcomp Require Import all_ssreflect all_algebra.
From Verif Require Import StiefelSpec FixedRankModel.
Import GRing.Theory Num.Theory.
Set Implicit Arguments.
Unset Strict Implicit.
Local Open Scope ring_scope.

Section spec.
Variables (R : rcfType) (r k l : nat).
(** X = U D V^T with orthonormal U and V and invertible D. *)
Record on_manifold (x : point R r k l) : Prop :=
  { on_U : orthonormal (pU x); on_V : orthonormal (pV x); on_D : pD x \in unitmx;
    on_X : pX x = pU x *m pD x *m (pV x)^T }.
(** A matrix of the tangent space: it has no part outside both ranges. *)
Definition tangent_matrix (x : point R r k l) (E : 'M[R]_(r + k, r + l)) : Prop :=
  (1%:M - pU x *m (pU x)^T) *m E *m (1%:M - pV x *m (pV x)^T) = 0.
(** The fields of a tangent vector represent its matrix, in the normalization of the header. *)
Record represents (x : point R r k l) (f : fields R r k l) (E : 'M[R]_(r + k, r + l)) : Prop :=
  { rep_E : E = fdU f *m pD x *m (pV x)^T + pU x *m fdD f *m (pV x)^T + pU x *m pD x *m (fdV f)^T;
    rep_U : (pU x)^T *m fdU f = 0; rep_V : (pV x)^T *m fdV f = 0 }.
Definition is_tangent (x : point R r k l) (t : tvec R r k l) : Prop := represents x (tF t) (tE t).

(** h is the derivative of the curve at 0: the curve is a + t h up to a constant times t^2. *)
Definition velocity p q (c : R -> 'M[R]_(p, q)) (a h : 'M[R]_(p, q)) : Prop :=
  exists C delta : R, 0 < delta /\ forall t : R, `|t| <= delta ->
    inner (c t - a - t *: h) (c t - a - t *: h) <= C * t ^+ 4.
(** The orthogonal projection on the tangent space at any matrix with the ranges of U and V. *)
Definition onto p q (U : 'M[R]_(p, r)) (V : 'M[R]_(q, r)) (E : 'M[R]_(p, q)) : 'M[R]_(p, q) :=
  U *m U^T *m E + E *m V *m V^T - U *m U^T *m E *m V *m V^T.
(** QR and SVD are right at every U + t dU. *)
Definition lapack_ok q (QR : 'M[R]_(r + q, r) -> 'M[R]_(r + q, r) * 'M[R]_r) SVD A : Prop :=
  qr_at QR A /\ svd_at SVD (QR A).2.
End spec.
