(** What the theorems about the shortest vector of a convex hull speak of; [inner] is that of
    StiefelSpec.v. *)
From mathcomp Require Import all_ssreflect all_algebra.
From Verif Require Import StiefelSpec.
Import GRing.Theory Num.Theory.
Set Implicit Arguments.
Unset Strict Implicit.
Local Open Scope ring_scope.

Section spec.
Variables (R : rcfType) (d l : nat).
(** v is a convex combination of the vectors Ys. *)
Definition in_hull (Ys : 'I_l -> 'cV[R]_d) (v : 'cV[R]_d) : Prop :=
  exists c : 'I_l -> R, (forall i, 0 <= c i) /\ \sum_i c i = 1 /\ v = \sum_i c i *: Ys i.
(** The squared length in the metric of the operator: v . H v, or v . v without an operator. *)
Definition sq_length (Hv : option ('cV[R]_d -> 'cV[R]_d)) (v : 'cV[R]_d) : R :=
  inner v (if Hv is Some h then h v else v).
(** The operator is linear, self-adjoint and positive semidefinite. *)
Definition metric_operator (Hv : option ('cV[R]_d -> 'cV[R]_d)) : Prop :=
  if Hv is Some h then (forall (a : R) u v, h (a *: u + v) = a *: h u + h v) /\
    (forall u v, inner (h u) v = inner u (h v)) /\ (forall u, 0 <= inner u (h u))
  else True.
(** A point of the unit sphere, and the directions along it. *)
Definition on_sphere (x : 'cV[R]_l) : Prop := inner x x = 1.
(** A point where the gradient vanishes and the Hessian has no direction of descent. *)
Definition second_order (grad : 'cV[R]_l -> 'cV[R]_l) (hess : 'cV[R]_l -> 'cV[R]_l -> 'cV[R]_l) (x : 'cV[R]_l) : Prop :=
  grad x = 0 /\ forall eta, inner x eta = 0 -> 0 <= inner eta (hess x eta).
End spec.
