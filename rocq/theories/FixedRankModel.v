(** Model of the manifold of matrices of fixed rank with the embedded geometry,
    Manifolds/FixedRankE.cpp.

    Exact arithmetic: a real closed field.  m = r + k, n = r + l.  A point is the matrix with its
    fields U, D, V; a tangent vector the matrix with its fields dU, dD, dV.  What LAPACK computes
    (Householder QR, QR, SVD) is an argument.  A / B solves a linear system with B, here by
    [invmx]; the theorems assume that B is invertible.  [dot] is that of StiefelModel.v. *)
From mathcomp Require Import all_ssreflect all_algebra.
From Verif Require Import StiefelModel.
Import GRing.Theory Num.Theory.
Set Implicit Arguments.
Unset Strict Implicit.
Local Open Scope ring_scope.

Section model.
Variables (R : rcfType) (r k l : nat).
Local Notation m := (r + k)%N.
Local Notation n := (r + l)%N.

Record point := Point { pX : 'M[R]_(r + k, r + l); pU : 'M[R]_(r + k, r); pD : 'M[R]_r; pV : 'M[R]_(r + l, r) }.
Record fields := Fields { fdU : 'M[R]_(r + k, r); fdD : 'M[R]_r; fdV : 'M[R]_(r + l, r) }.
Record tvec := Tvec { tE : 'M[R]_(r + k, r + l); tF : fields }.
Definition tU t := fdU (tF t).
Definition tD t := fdD (tF t).
Definition tV t := fdV (tF t).

(** Element.cpp 391-418. *)
Definition mdiv q (A : 'M[R]_(q, r)) (B : 'M[R]_r) : 'M[R]_(q, r) := A *m invmx B.

(** Constructor 11-12. *)
Definition intr_dim : nat := (m - r) * r + r * r + (n - r) * r.
Definition extr_dim : nat := n * m.

(** Metric 28-36. *)
Definition metric (x : point) (eta xi : tvec) : R :=
  let dUetaD := tU eta *m pD x in let dUxixD := tU xi *m pD x in
  let dVetaD := tV eta *m (pD x)^T in let dVxixD := tV xi *m (pD x)^T in
  dot dUetaD dUxixD + dot dVetaD dVxixD + dot (tD eta) (tD xi).

(** The matrix U D dV^T + U dD V^T + dU D V^T, 274, 303. *)
Definition assemble (x : point) (f : fields) : 'M[R]_(r + k, r + l) :=
  pU x *m pD x *m (fdV f)^T + pU x *m fdD f *m (pV x)^T + fdU f *m pD x *m (pV x)^T.

(** ExtrProjection 266-279; Projection 261-264 and EucGradToGrad 281-289 are the same. *)
Definition projection (x : point) (E : 'M[R]_(r + k, r + l)) : tvec :=
  let MV := E *m pV x in
  let dD := (pU x)^T *m MV in
  let dU := mdiv (MV - pU x *m dD) (pD x) in
  let dV := mdiv (E^T *m pU x - pV x *m dD^T) (pD x)^T in
  let f := Fields dU dD dV in
  Tvec (assemble x f) f.

(** EucHvToHv 291-309; [G] is the field EGrad of x. *)
Definition hess (x : point) (G : 'M[R]_(r + k, r + l)) (eta : tvec) (exix : 'M[R]_(r + k, r + l)) : tvec :=
  let xix := projection x exix in
  let MdV := G *m tV eta in let MTdU := G^T *m tU eta in
  let dUxix := tU xix + mdiv (MdV - pU x *m ((pU x)^T *m MdV)) (pD x) in
  let dVxix := tV xix + mdiv (MTdU - pV x *m ((pV x)^T *m MTdU)) (pD x)^T in
  let f := Fields dUxix (tD xix) dVxix in
  Tvec (assemble x f) f.

(** Retraction 167-198: QR of U + dU, then the SVD of the R factor; the fields _S and _Vt of U and V
    of the result are the SVD's. *)
Definition polar_of q (QR : 'M[R]_(r + q, r) -> 'M[R]_(r + q, r) * 'M[R]_r) (SVD : 'M[R]_r -> 'M[R]_r * 'rV[R]_r * 'M[R]_r)
    (A : 'M[R]_(r + q, r)) : 'M[R]_(r + q, r) * 'rV[R]_r * 'M[R]_r :=
  let (Q, Rf) := QR A in let: (W, Sg, Vt) := SVD Rf in (Q *m (W *m Vt), Sg, Vt).
Section retraction.
Variables (QRm : 'M[R]_(r + k, r) -> 'M[R]_(r + k, r) * 'M[R]_r) (QRn : 'M[R]_(r + l, r) -> 'M[R]_(r + l, r) * 'M[R]_r).
Variable SVD : 'M[R]_r -> 'M[R]_r * 'rV[R]_r * 'M[R]_r.
Definition retraction (x : point) (f : fields) : point :=
  let Uy := (polar_of QRm SVD (pU x + fdU f)).1.1 in
  let Vy := (polar_of QRn SVD (pV x + fdV f)).1.1 in
  let Dy := pD x + fdD f in
  Point (Uy *m Dy *m Vy^T) Uy Dy Vy.

(** DiffRetraction 200-224 for xi in the direction of eta.  sqrt(a / 0) is not a number or infinite:
    no result.  (HasHHR's field beta, 226-243, is not modelled.) *)
Definition diff_factor q (S : 'rV[R]_r) (Vt : 'M[R]_r) (y d xi : 'M[R]_(r + q, r)) : option 'M[R]_(r + q, r) :=
  if dot d d == 0 then None else
  let alpha := Num.sqrt (dot xi xi / dot d d) in
  let tmp := d *m Vt^T in
  let Sinv := \row_i (1 / S 0 i) in
  let tmp := (\matrix_(i, j) (tmp i j * Sinv 0 j)) *m Vt in
  Some (alpha *: (tmp - y *m (tmp^T *m tmp))).
Definition diff_retraction (x : point) (eta : fields) (y : point) (xi : fields) : option tvec :=
  let: (_, SU, VtU) := polar_of QRm SVD (pU x + fdU eta) in
  let: (_, SV, VtV) := polar_of QRn SVD (pV x + fdV eta) in
  match diff_factor SU VtU (pU y) (fdU eta) (fdU xi), diff_factor SV VtV (pV y) (fdV eta) (fdV xi) with
  | Some result1, Some result2 =>
    let f := Fields result1 (fdD xi) result2 in
    Some (Tvec (assemble y f) f)
  | _, _ => None
  end.
End retraction.

(** ObtainNorVerIntr 120-136 and ObtainNorVerExtr 138-165.  QU and QV are the orthogonal matrices of
    the fields _HHR and _tau of U and V; the (m - r) (n - r) entries, in column-major order, are a
    matrix here. *)
Definition normal_intr (QU : 'M[R]_(r + k)) (QV : 'M[R]_(r + l)) (E : 'M[R]_(r + k, r + l)) : 'M[R]_(k, l) :=
  let QUTetax := QU^T *m E in let QUTetaxQV := QUTetax *m QV in
  \matrix_(j, i) QUTetaxQV (rshift r j) (rshift r i).
Definition normal_extr (QU : 'M[R]_(r + k)) (QV : 'M[R]_(r + l)) (M : 'M[R]_(k, l)) : 'M[R]_(r + k, r + l) :=
  let res := \matrix_(j, i) (match split j, split i with inr j', inr i' => M j' i' | _, _ => 0 end) in
  let res := QU *m res in res *m QV^T.

(** The operations on vectors, in the memory of the caller: [None] in [sf] where a vector has no
    fields dU, dD, dV.  Writing to a vector removes its fields (FieldsModel.v).  An operation that
    asks for a missing field has the outcome [None]. *)
Record slot := Slot { sE : 'M[R]_(r + k, r + l); sf : option fields }.
Definition store := nat -> slot.
Definition upd (st : store) (a : nat) (s : slot) : store := fun b => if b == a then s else st b.
Definition scaleF (a : R) (f : fields) : fields := Fields (a *: fdU f) (a *: fdD f) (a *: fdV f).
Definition axpyF (a : R) (f g : fields) : fields := Fields (a *: fdU f + fdU g) (a *: fdD f + fdD g) (a *: fdV f + fdV g).
(** result->ScalarTimesThis(scalar), result->AlphaXaddThis(scalar, etax). *)
Definition scal_this (st : store) (res : nat) (a : R) : store := upd st res (Slot (a *: sE (st res)) None).
Definition axpy_this (st : store) (res : nat) (a : R) (eta : nat) : store :=
  upd st res (Slot (a *: sE (st eta) + sE (st res)) None).
Definition add_fields (st : store) (res : nat) (f : fields) : store := upd st res (Slot (sE (st res)) (Some f)).

(** ScalarTimesVector 61-71. *)
Definition scalar_times (st : store) (a : R) (eta res : nat) : option store :=
  match sf (st eta) with
  | None => None
  | Some f => let st := upd st res (st eta) in let st := scal_this st res a in Some (add_fields st res (scaleF a f))
  end.
(** ScalarVectorAddVector 73-87: the fields of etax are read after the assignment to result. *)
Definition scalar_vector_add (st : store) (a : R) (eta xi res : nat) : option store :=
  match sf (st xi) with
  | None => None
  | Some g =>
    let st := upd st res (st xi) in let st := axpy_this st res a eta in
    match sf (st eta) with
    | None => None
    | Some f => Some (add_fields st res (axpyF a f g))
    end
  end.
(** VectorLinearCombination 89-118: copies of both vectors are taken first, and projected if they
    have no fields. *)
Definition with_fields (x : point) (s : slot) : tvec :=
  match sf s with Some f => Tvec (sE s) f | None => projection x (sE s) end.
Definition linear_combination (x : point) (st : store) (a : R) (eta : nat) (b : R) (xi res : nat) : option store :=
  let e := with_fields x (st eta) in let z := with_fields x (st xi) in
  let st := upd st res (Slot (tE z) (Some (tF z))) in
  let st := scal_this st res b in
  let st := upd st res (Slot (a *: tE e + sE (st res)) None) in
  Some (add_fields st res (Fields (a *: tU e + b *: tU z) (a *: tD e + b *: tD z) (a *: tV e + b *: tV z))).
End model.
