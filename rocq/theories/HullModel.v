(** Model of MinPNormConHull, Others/MinPNormConHull.cpp: the shortest vector of the convex hull of
    tangent vectors, found by RTRNewton on the sphere of the square roots of the coefficients.

    The objective SphereConvexHull is that of ObjectiveModel.v; Sphere inherits EucGradToGrad and
    EucHvToHv of Stiefel (Sphere.h 18), so the gradient and Hessian RTRNewton works with are those of
    StiefelModel.v with one column.  There are 1 + k vectors, f reads W[0] in any case.  RTRNewton is a
    function from the problem's initial point to the point it ends at; that its iterates do not raise
    f is C30.  Exact arithmetic over an arbitrary real closed field. *)
From mathcomp Require Import all_ssreflect all_algebra.
From Verif Require Import StiefelModel ObjectiveModel.
Import GRing.Theory Num.Theory.
Set Implicit Arguments.
Unset Strict Implicit.
Local Open Scope ring_scope.

Section model.
Variables (R : rcfType) (d k : nat).
Variables (Ys : 'I_(1 + k) -> 'cV[R]_d) (Hv : option ('cV[R]_d -> 'cV[R]_d)).
(** Problem.cpp 84-95 on the Sphere: the gradient at x. *)
Definition hull_grad (x : 'cV[R]_(1 + k)) : 'cV[R]_(1 + k) :=
  let fl := (o_f (convex_hull Ys Hv) x).2 in
  @grad_euclidean R 1 k x (o_egrad (convex_hull Ys Hv) x fl).
(** Problem.cpp, HessianEta, on the Sphere: the Hessian at x applied to eta. *)
Definition hull_hess (x eta : 'cV[R]_(1 + k)) : 'cV[R]_(1 + k) :=
  let fl := (o_f (convex_hull Ys Hv) x).2 in
  @hess_euclidean R 1 k x eta (o_ehess (convex_hull Ys Hv) x fl eta) (o_egrad (convex_hull Ys Hv) x fl).
(** MinPNormConHullRMethod 18-38: the value and outSoln.  [rtr] is the run of RTRNewton, [init] the
    random point 23.  Getfinalfun is the value of f at GetXopt, and the field Wxsq of GetXopt is the
    one f stored there. *)
Definition min_norm_hull (rtr : 'cV[R]_(1 + k) -> 'cV[R]_(1 + k)) (init : 'cV[R]_(1 + k)) : R * 'cV[R]_d :=
  let xopt := rtr init in
  let r := o_f (convex_hull Ys Hv) xopt in
  (r.1, r.2.1).
End model.
