(** The shortest vector of a convex hull, C169-C170: theorems only.  The statements use HullSpec.v. *)
From mathcomp Require Import all_ssreflect all_algebra.
From Verif Require Import StiefelSpec HullModel HullSpec HullProofs HullWitness.
Import GRing.Theory Num.Theory.
Set Implicit Arguments.
Unset Strict Implicit.
Local Open Scope ring_scope.

(** C169: whatever point of the sphere the inner solver ends at, outSoln is a convex combination of the
    given vectors and the returned number is its squared length. *)
Theorem C169_hull_vector (R : rcfType) (d k : nat) (Ys : 'I_(1 + k) -> 'cV[R]_d) (Hv : option ('cV[R]_d -> 'cV[R]_d))
  (rtr : 'cV[R]_(1 + k) -> 'cV[R]_(1 + k)) (init : 'cV[R]_(1 + k)) : on_sphere (rtr init) ->
  in_hull Ys (min_norm_hull Ys Hv rtr init).2 /\
  (min_norm_hull Ys Hv rtr init).1 = sq_length Hv (min_norm_hull Ys Hv rtr init).2.
Proof. exact (@fact_in_hull R d k Ys Hv rtr init). Qed.
Print Assumptions C169_hull_vector.
Example C169_example (R : rcfType) : on_sphere (wx R).
Proof. exact (proj1 (wx_ok R)). Qed.

(** C170: the result is the shortest vector of the hull.  Proved when the inner solver ends at a point
    where the gradient it works with vanishes and the Hessian it works with has no direction of descent;
    missing: that RTRNewton ends at such a point. *)
Theorem C170_shortest_partial (R : rcfType) (d k : nat) (Ys : 'I_(1 + k) -> 'cV[R]_d) (Hv : option ('cV[R]_d -> 'cV[R]_d))
  (rtr : 'cV[R]_(1 + k) -> 'cV[R]_(1 + k)) (init : 'cV[R]_(1 + k)) :
  metric_operator Hv -> second_order (hull_grad Ys Hv) (hull_hess Ys Hv) (rtr init) ->
  (forall v, in_hull Ys v -> (min_norm_hull Ys Hv rtr init).1 <= sq_length Hv v) /\
  ((forall u, u != 0 -> 0 < sq_length Hv u) ->
   forall v, in_hull Ys v -> sq_length Hv v = (min_norm_hull Ys Hv rtr init).1 -> v = (min_norm_hull Ys Hv rtr init).2).
Proof. exact (@fact_minimum R d k Ys Hv rtr init). Qed.
Print Assumptions C170_shortest_partial.
Example C170_example (R : rcfType) : on_sphere (wx R) /\ second_order (hull_grad (wY R) None) (hull_hess (wY R) None) (wx R) /\
  metric_operator (@None ('cV[R]_1 -> 'cV[R]_1)).
Proof. exact (wx_ok R). Qed.

(** Wherever the solver ends: if no given vector has an inner product with the result below the returned
    number minus delta, the number is within twice delta of the minimum. *)
Theorem C170_certificate_partial (R : rcfType) (d k : nat) (Ys : 'I_(1 + k) -> 'cV[R]_d) (Hv : option ('cV[R]_d -> 'cV[R]_d))
  (rtr : 'cV[R]_(1 + k) -> 'cV[R]_(1 + k)) (init : 'cV[R]_(1 + k)) (delta : R) : metric_operator Hv ->
  (forall i, (min_norm_hull Ys Hv rtr init).1 - delta <=
     inner (Ys i) (if Hv is Some h then h (min_norm_hull Ys Hv rtr init).2 else (min_norm_hull Ys Hv rtr init).2)) ->
  forall v, in_hull Ys v -> (min_norm_hull Ys Hv rtr init).1 - 2%:R * delta <= sq_length Hv v.
Proof. exact (@fact_certificate R d k Ys Hv rtr init delta). Qed.
Print Assumptions C170_certificate_partial.
Example C170_certificate_example (R : rcfType) (i : 'I_(1 + 1)) :
  (min_norm_hull (wY R) None id (wx R)).1 - 0 <= inner (wY R i) (min_norm_hull (wY R) None id (wx R)).2.
Proof. exact (wx_certificate R i). Qed.

(** The test the inner solver stops by, a small gradient, is not enough: for the numbers 2 and 1, started
    at the first one, the gradient is zero and the result 4, but the shortest vector has squared length 1. *)
Theorem C170_first_order_refuted (R : rcfType) : on_sphere (rx R) /\ hull_grad (rY R) None (rx R) = 0 /\
  exists v, in_hull (rY R) v /\ sq_length None v < (min_norm_hull (rY R) None id (rx R)).1.
Proof. exact (@fact_first_order R). Qed.
Print Assumptions C170_first_order_refuted.
