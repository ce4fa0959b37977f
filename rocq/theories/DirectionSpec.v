(** Vocabulary for the search-direction theorems. *)
From Coq Require Import QArith Reals List Bool.
From Verif Require Import Arith TrustRegionModel TrustRegionSpec DirectionModel.
Local Open Scope R_scope.

(** The metric is an inner product (semi-definite is enough) at every point, and the two vector
    operations of the manifold are the usual ones. *)
Record metric_laws {big eps} (G : rgeo (R_arith big eps)) : Prop := {
  m_sym : forall x v w, rmet G x v w = rmet G x w v;
  m_scal : forall x a v w, rmet G x (rscal G a v) w = a * rmet G x v w;
  m_comb : forall x a v b w u, rmet G x (rcomb G a v b w) u = a * rmet G x v u + b * rmet G x w u;
  m_pos : forall x v, 0 <= rmet G x v v
}.

(** A Euclidean space: one metric, the trivial transport, no preconditioner (up to vectors with
    the same inner products). *)
Record euclidean {big eps} (G : rgeo (R_arith big eps)) : Prop := {
  e_laws : metric_laws G;
  e_flat : forall x y v w, rmet G x v w = rmet G y v w;
  e_tran : forall x1 e x2 v y u, rmet G y (rtran G x1 e x2 v) u = rmet G y v u;
  e_prec : forall x v y u, rmet G y (rprec G x v) u = rmet G y v u
}.

(** The objective is a strictly convex quadratic with Hessian [H]: self-adjoint and positive on
    vectors that are not zero. *)
Record convex_quadratic {big eps} (G : rgeo (R_arith big eps)) (H : RT G -> RT G) : Prop := {
  q_sym : forall x v w, rmet G x (H v) w = rmet G x v (H w);
  q_pos : forall x v, (exists u, rmet G x v u <> 0) -> 0 < rmet G x v (H v)
}.

(** The line search is exact on that quadratic: the new gradient is the old one plus t H(eta1)
    for some t, and it is orthogonal to the direction. *)
Definition exact_search {big eps} {G : rgeo (R_arith big eps)} (H : RT G -> RT G)
    (ls : rcg _ G -> RT G * RP G * RT G) : Prop :=
  forall s eta2 x2 gf2, ls s = (eta2, x2, gf2) ->
    (exists t, forall u, rmet G (rx1 s) gf2 u = rmet G (rx1 s) (rgf1 s) u + t * rmet G (rx1 s) (H (reta1 s)) u) /\
    rmet G (rx1 s) gf2 (reta1 s) = 0.

(** The textbook conjugate gradient method (Hestenes and Stiefel): directions [d] from
    gradients [g]; [inp] is the inner product. *)
Definition textbook_cg {V : Type} (inp : V -> V -> R) (g d : nat -> V) (n : nat) : Prop :=
  (forall u, inp (d 0%nat) u = - inp (g 0%nat) u) /\
  (forall k u, (S k <= n)%nat ->
     inp (d (S k)) u = - inp (g (S k)) u + inp (g (S k)) (g (S k)) / inp (g k) (g k) * inp (d k) u).
