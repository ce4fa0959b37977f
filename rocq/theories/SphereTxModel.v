(** Model of Manifolds/SphereTx.cpp, the unit sphere of the tangent space of a manifold at a
    point [root], and of Problems/SphereTxRQ.cpp, the Rayleigh quotient of a Hessian on it.

    The manifold is an argument: [g] is mani->Metric(root, ., .) and [P] mani->Projection(root, .).
    Its ScalarTimesVector, ScalarVectorAddVector and VectorLinearCombination are those of class
    Manifold, TangentModel.v; no call below passes the first operand as the result. *)
From Coq Require Import List QArith.
Import ListNotations.
From Verif Require Import Arith MatOpsModel TangentModel.
Local Close Scope Q_scope.

Section model.
Context {A : arith}.
Local Open Scope arith_scope.
Notation F := (F A).
Notation vec := (@vec A).
Variables fsin fcos : F -> F.
Variable g : vec -> vec -> F.
Variable P : vec -> vec.

(** Metric, SphereTx.cpp 45-48 *)
Definition tx_metric (x eta xi : vec) : F := g eta xi.
(** RandominManifold 35-43; [v] is the outcome of RandGaussian. *)
Definition tx_random (v : vec) : vec :=
  let result := P v in
  let normresult := fsqrt (g result result) in
  scal (lit 1 / normresult) result.
(** Projection, ExtrProjection 50-60 *)
Definition tx_projection (x eta : vec) : vec :=
  let result := P eta in
  let nume := g x result in
  axpy (- nume) x result.
(** Retraction 77-88 *)
Definition tx_retraction (x eta : vec) : vec :=
  let norm := fsqrt (tx_metric x eta eta) in
  let result :=
    if norm <? fepsv then scal (fcos norm) x
    else lincomb (fcos norm) x (fsin norm / norm) eta in
  let norm := fsqrt (tx_metric x result result) in
  scal (lit 1 / norm) result.
(** VectorTransport 129-134; etax is not used. *)
Definition tx_transport (x eta y xi : vec) : vec :=
  let xdy := axpy (lit 1) y x in
  let tmpv := lit (-2) * g xi y / g xdy xdy in
  axpy tmpv xdy xi.
(** InverseVectorTransport 136-141 *)
Definition tx_inverse_transport (x eta y xi : vec) : vec :=
  let xdy := axpy (lit 1) x y in
  let tmpv := lit (-2) * g xi x / g xdy xdy in
  axpy tmpv xdy xi.
(** DiffRetraction 96-122 with IsEtaXiSameDir and HasHHR false, its value in the constructor (11). *)
Definition tx_diff_same_direction (x eta y xi : vec) : vec := tx_transport x eta y xi.
(** Beta 124-127 *)
Definition tx_beta (x eta : vec) : F := lit 1.
(** EucGradToGrad 150-157 *)
Definition tx_EucGradToGrad (x egf : vec) : vec := tx_projection x egf.
(** EucHvToHv 159-165; [EGrad] is the field EucGradToGrad attached to x. *)
Definition tx_EucHvToHv (x EGrad eta exix : vec) : vec :=
  tx_projection x (lincomb (lit 1) exix (- g EGrad x) eta).

(** ** SphereTxRQ; [H] is prob->HessianEta(root, .), [ismin] the constructor's argument. *)
Variable H : vec -> vec.
Variable ismin : bool.
(** f, SphereTxRQ.cpp 72-79; the field "Hx" is [H x]. *)
Definition rq_f (x : vec) : F :=
  let TmpTV := H x in
  let result := g TmpTV x in
  if ismin then result else - result.
(** EucGrad 81-92 *)
Definition rq_EucGrad (x : vec) : vec :=
  let result := H x in
  if ismin then scal (lit 2) result else scal (lit (-2)) result.
(** EucHessianEta 94-102 *)
Definition rq_EucHessianEta (x eta : vec) : vec :=
  let result := H eta in
  if ismin then scal (lit 2) result else scal (lit (-2)) result.
(** Problem::RieGrad and RieHessianEta (Problem.cpp 83-105) on the domain SphereTx; NumGradHess is
    false (SphereTxRQ.cpp 60). *)
Definition rq_grad (x : vec) : vec := tx_EucGradToGrad x (rq_EucGrad x).
Definition rq_hess (x eta : vec) : vec := tx_EucHvToHv x (rq_EucGrad x) eta (rq_EucHessianEta x eta).
End model.

(** MinMaxEigValHessian 7-41: the values reported when the two runs of RTRNewton end at [x] and [z]. *)
Definition eig_values {A : arith} g H (x z : @vec A) : F A * F A :=
  (rq_f g H true x, fopp (rq_f g H false z)).
