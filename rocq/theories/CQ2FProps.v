(** Properties C147-C153: complex matrices of fixed rank in two factors (Manifolds/CFixedRankQ2F.cpp). *)
From mathcomp Require Import all_ssreflect all_algebra.
From mathcomp.real_closed Require Import complex.
From Verif Require Import StiefelModel StiefelSpec CStieSpec CFrSpec CDecomp CQ2FModel CQ2FSpec CQ2FProofs CQ2FIntr CQ2FRetr CQ2FFacts.
Import Order.TTheory GRing.Theory Num.Theory.
Set Implicit Arguments.
Unset Strict Implicit.
Local Open Scope ring_scope.
Local Open Scope complex_scope.

(** C147: the inner product is that of the changes of the represented matrix. *)
Theorem C147_complex_fixed_rank_metric (R : rcfType) (r a b : nat) (x eta xi : cpair R r a b) :
  metric x eta xi = cinner (lift x eta) (lift x xi).
Proof. exact (@metricE R r a b x eta xi). Qed.
Print Assumptions C147_complex_fixed_rank_metric.
(** It vanishes exactly on the directions of the orbit, and is positive definite on the horizontal ones. *)
Theorem C147_complex_fixed_rank_positive (R : rcfType) (r a b : nat) (x : cpair R r a b) : is_point x ->
  (forall v, vertical x v <-> metric x v v = 0) /\
  forall eta, horizontal x eta -> 0 <= metric x eta eta /\ (metric x eta eta = 0 -> eta = zerop R r a b).
Proof. exact (@fact_positive R r a b x). Qed.
Print Assumptions C147_complex_fixed_rank_positive.
(** The projection is the only split into a horizontal and a vertical vector. *)
Theorem C147_complex_fixed_rank_projection (R : rcfType) (r a b : nat) CHOL (x eta : cpair R r a b) : cchol_ok CHOL -> is_point x ->
  let h := projection CHOL x eta in
  [/\ horizontal x h, vertical x (subp eta h), lift x h = lift x eta &
      forall h', horizontal x h' -> vertical x (subp eta h') -> h' = h].
Proof. exact (@fact_projection R r a b CHOL x eta). Qed.
Print Assumptions C147_complex_fixed_rank_projection.
(** The hypotheses, for every size: a Cholesky routine and a point. *)
Example C147_example (R : rcfType) (r a b : nat) : (exists CHOL, cchol_ok (R := R) (n := r) CHOL) /\
  is_point (CPair (col_mx 1%:M 0) (col_mx 1%:M 0) : cpair R r a b).
Proof. exact (conj (chol_function R r) (@some_point R r a b)). Qed.

(** C148: for a Euclidean gradient that vanishes on the orbit, as that of a function of the represented
    matrix does, the gradient is horizontal and represents the derivative; it is the only such vector. *)
Theorem C148_complex_fixed_rank_gradient (R : rcfType) (r a b : nat) CHOL (x egf : cpair R r a b) : cchol_ok CHOL -> is_point x ->
  invariant_at x egf -> let g := gradient CHOL x egf in
  [/\ horizontal x g, forall xi, metric x g xi = pairing egf xi &
      forall h, horizontal x h -> (forall xi, horizontal x xi -> metric x h xi = pairing egf xi) -> h = g].
Proof. exact (@fact_gradient R r a b CHOL x egf). Qed.
Print Assumptions C148_complex_fixed_rank_gradient.
(** In terms of the represented matrix: its change along the gradient is the tangential part of the
    gradient of the function. *)
Theorem C148_complex_fixed_rank_product (R : rcfType) (r a b : nat) CHOL (x : cpair R r a b) (E : 'M[R[i]]_(r + a, r + b)) :
  cchol_ok CHOL -> is_point x ->
  invariant_at x (egrad_of x E) /\ normal_at x (E - lift x (gradient CHOL x (egrad_of x E))).
Proof. exact (@fact_gradient_product R r a b CHOL x E). Qed.
Print Assumptions C148_complex_fixed_rank_product.

(** C149: the action of the Hessian is horizontal and is the second derivative along every curve of
    represented matrices whose second derivative at the point is normal, polarised: D is the derivative
    of the gradient E of the function along eta, A the mixed second derivative of the curve. *)
Theorem C149_complex_fixed_rank_hessian (R : rcfType) (r a b : nat) CHOL (x : cpair R r a b) (E D : 'M[R[i]]_(r + a, r + b))
  (eta xi zeta : cpair R r a b) (A := cfst xi *m adj (csnd eta) + cfst eta *m adj (csnd xi) + lift x zeta) :
  cchol_ok CHOL -> is_point x -> normal_at x A ->
  metric x (hessian CHOL x (egrad_of x E) eta (egrad_diff x eta E D)) xi = cinner D (lift x xi) + cinner E A.
Proof. exact (@fact_hessian R r a b CHOL x E D eta xi zeta). Qed.
Print Assumptions C149_complex_fixed_rank_hessian.
Theorem C149_complex_fixed_rank_horizontal (R : rcfType) (r a b : nat) CHOL (x egf eta exix : cpair R r a b) : cchol_ok CHOL ->
  is_point x -> horizontal x (hessian CHOL x egf eta exix).
Proof. exact (fun HC Hx => @hess_hor R r a b CHOL HC x Hx egf eta exix). Qed.
Print Assumptions C149_complex_fixed_rank_horizontal.
(** Such an acceleration always exists; the input is the derivative of the Euclidean gradient. *)
Theorem C149_complex_fixed_rank_acceleration (R : rcfType) (r a b : nat) (x : cpair R r a b) (X : 'M[R[i]]_(r + a, r + b)) :
  is_point x -> exists zeta, normal_at x (X + lift x zeta).
Proof. exact (fun Hx => @normal_exists R r a b x Hx X). Qed.
Print Assumptions C149_complex_fixed_rank_acceleration.
Theorem C149_complex_fixed_rank_input (R : rcfType) (r a b : nat) (x eta : cpair R r a b) (E D : 'M[R[i]]_(r + a, r + b)) (t : R) :
  egrad_of (addp x (scalep t eta)) (E + t%:C *: D) =
  addp (addp (egrad_of x E) (scalep t (egrad_diff x eta E D))) (scalep (t ^+ 2) (egrad_of eta D)).
Proof. exact (@fact_egrad_diff R r a b x eta E D t). Qed.
Print Assumptions C149_complex_fixed_rank_input.
(** It is self-adjoint when the second derivative of the function is. *)
Theorem C149_complex_fixed_rank_self_adjoint (R : rcfType) (r a b : nat) CHOL (x : cpair R r a b) (E D1 D2 : 'M[R[i]]_(r + a, r + b))
  (eta xi : cpair R r a b) : cchol_ok CHOL -> is_point x -> cinner D1 (lift x xi) = cinner (lift x eta) D2 ->
  metric x (hessian CHOL x (egrad_of x E) eta (egrad_diff x eta E D1)) xi =
  metric x eta (hessian CHOL x (egrad_of x E) xi (egrad_diff x xi E D2)).
Proof. exact (@fact_self R r a b CHOL x E D1 D2 eta xi). Qed.
Print Assumptions C149_complex_fixed_rank_self_adjoint.

(** C150: the coordinates are an isometry between the horizontal vectors and all lists of the stated
    length; for any vector they are those of its projection. *)
Theorem C150_complex_fixed_rank_coordinates (R : rcfType) (r a b : nat) CHOL (x : cpair R r a b) QG RG QH RH (eta xi : cpair R r a b) :
  cchol_ok CHOL -> is_point x -> is_chhr (cfst x) QG RG -> is_chhr (csnd x) QH RH ->
  let f := obtain_intr QG RG QH RH in let g := obtain_extr QG RG QH RH in
  [/\ size (f eta) = intr_dim r a b, vdot (f eta) (f xi) = metric x eta xi, g (f eta) = projection CHOL x eta,
      horizontal x eta -> g (f eta) = eta &
      forall v, size v = intr_dim r a b -> horizontal x (g v) /\ f (g v) = v].
Proof. exact (@fact_coords R r a b CHOL x QG RG QH RH eta xi). Qed.
Print Assumptions C150_complex_fixed_rank_coordinates.
Theorem C150_complex_fixed_rank_dimension (r a b : nat) : intr_dim r a b = (2 * (r * r + r * a + r * b))%N.
Proof. exact (fact_dim r a b). Qed.
Print Assumptions C150_complex_fixed_rank_dimension.
Example C150_example (R : rcfType) (r a b : nat) (x : cpair R r a b) :
  exists QG RG QH RH, is_chhr (cfst x) QG RG /\ is_chhr (csnd x) QH RH.
Proof. exact (@some_hhr R r a b x). Qed.

(** C151: the represented matrix of the retraction starts at that of x and moves along the change of the
    represented matrix, up to second order; small vectors stay on the manifold. *)
Theorem C151_complex_fixed_rank_retraction_partial (R : rcfType) (r a b : nat) (x : cpair R r a b) : is_point x ->
  [/\ retraction x (zerop R r a b) = x,
      forall eta, product (retraction x eta) = product x + lift x eta + cfst eta *m adj (csnd eta),
      forall eta, csecond_order (fun t => product (retraction x (scalep t eta))) (fun t => product x + t%:C *: lift x eta) &
      exists2 d, 0 < d & forall eta, pairing eta eta < d -> is_point (retraction x eta)].
Proof.
exact (fun Hx => And4 (retr_zero x) (fun eta => retr_product x eta) (fun eta => retr_second x eta) (retr_near Hx)).
Qed.
Print Assumptions C151_complex_fixed_rank_retraction_partial.
(** It is refuted for all vectors: at every point some horizontal vector leads off the manifold. *)
Theorem C151_complex_fixed_rank_retraction_refuted (R : rcfType) (r a b : nat) (x : cpair R r a b) : (0 < r)%N -> is_point x ->
  exists eta, [/\ horizontal x eta, ~ is_point (retraction x eta) & product x + lift x eta = - product x].
Proof. exact (@retr_collapse R r a b x). Qed.
Print Assumptions C151_complex_fixed_rank_retraction_refuted.
(** The differentiated retraction is horizontal at the new point, and the derivative in terms of the
    represented matrix. *)
Theorem C151_complex_fixed_rank_differentiated (R : rcfType) (r a b : nat) CHOL (x eta xi : cpair R r a b) (y := retraction x eta) :
  cchol_ok CHOL -> is_point y -> horizontal y (diff_retraction CHOL y xi) /\
  csecond_order (fun t => product (retraction x (addp eta (scalep t xi))))
    (fun t => product y + t%:C *: lift y (diff_retraction CHOL y xi)).
Proof. exact (@diff_second R r a b CHOL x eta xi). Qed.
Print Assumptions C151_complex_fixed_rank_differentiated.

(** C152: the retraction by projection, when both sides of the matrix are at least 2 r: the result
    represents a matrix nearest to that of x plus its change among all products of such factors, and is a
    point exactly if that sum has rank at least r. *)
Theorem C152_complex_fixed_rank_nearest_partial (R : rcfType) (r a b : nat) QRa QRb SVD :
  (forall A : 'M[R[i]]_(r + a, r + r), cqr_at QRa A) -> (forall A : 'M[R[i]]_(r + b, r + r), cqr_at QRb A) ->
  (forall A : 'M[R[i]]_(r + r), csvd_desc SVD A) -> (r <= a)%N -> (r <= b)%N -> forall x eta : cpair R r a b,
  exists y, [/\ proj_retraction QRa QRb SVD x eta = Some y,
    forall z, cinner (product x + lift x eta - product y) (product x + lift x eta - product y) <=
      cinner (product x + lift x eta - product z) (product x + lift x eta - product z) &
    is_point y <-> (r <= \rank (product x + lift x eta)%R)%N].
Proof. exact (@proj_retr_spec R r a b QRa QRb SVD). Qed.
Print Assumptions C152_complex_fixed_rank_nearest_partial.
(** So it follows the change of the represented matrix up to second order. *)
Theorem C152_complex_fixed_rank_second_order_partial (R : rcfType) (r a b : nat) QRa QRb SVD :
  (forall A : 'M[R[i]]_(r + a, r + r), cqr_at QRa A) -> (forall A : 'M[R[i]]_(r + b, r + r), cqr_at QRb A) ->
  (forall A : 'M[R[i]]_(r + r), csvd_desc SVD A) -> (r <= a)%N -> (r <= b)%N ->
  forall (x eta : cpair R r a b) (y : R -> cpair R r a b),
  (forall t, proj_retraction QRa QRb SVD x (scalep t eta) = Some (y t)) ->
  csecond_order (fun t => product (y t)) (fun t => product x + t%:C *: lift x eta).
Proof. exact (@proj_retr_second R r a b QRa QRb SVD). Qed.
Print Assumptions C152_complex_fixed_rank_second_order_partial.
(** Refuted otherwise: with a side shorter than 2 r the arrays are read out of bounds, ... *)
Theorem C152_complex_fixed_rank_narrow_refuted (R : rcfType) (r a b : nat) QRa QRb SVD (x eta : cpair R r a b) :
  (a < r)%N \/ (b < r)%N -> proj_retraction QRa QRb SVD x eta = None.
Proof. exact (@narrow R r a b QRa QRb SVD x eta). Qed.
Print Assumptions C152_complex_fixed_rank_narrow_refuted.
(** ... and at every point some horizontal vector leads off the manifold. *)
Theorem C152_complex_fixed_rank_collapse_refuted (R : rcfType) (r a b : nat) QRa QRb SVD :
  (forall A : 'M[R[i]]_(r + a, r + r), cqr_at QRa A) -> (forall A : 'M[R[i]]_(r + b, r + r), cqr_at QRb A) ->
  (forall A : 'M[R[i]]_(r + r), csvd_desc SVD A) -> (r <= a)%N -> (r <= b)%N -> (0 < r)%N ->
  forall x : cpair R r a b, is_point x ->
  exists eta y, [/\ horizontal x eta, proj_retraction QRa QRb SVD x eta = Some y & ~ is_point y].
Proof. exact (@proj_collapse R r a b QRa QRb SVD). Qed.
Print Assumptions C152_complex_fixed_rank_collapse_refuted.
Example C152_example (R : rcfType) (r a b : nat) : (r <= a)%N -> (r <= b)%N -> exists QRa QRb SVD,
  [/\ forall A : 'M[R[i]]_(r + a, r + r), cqr_at QRa A, forall A : 'M[R[i]]_(r + b, r + r), cqr_at QRb A &
      forall A : 'M[R[i]]_(r + r), csvd_desc SVD A].
Proof. exact (@some_routines R r a b). Qed.

(** C153: the transport keeps inner products, ends in horizontal vectors, copies coordinates, and the
    transport from y to x undoes it. *)
Theorem C153_complex_fixed_rank_transport_partial (R : rcfType) (r a b : nat) (x y : cpair R r a b) QGx RGx QHx RHx QGy RGy QHy RHy
  (xi zeta : cpair R r a b) : is_point x -> is_point y ->
  is_chhr (cfst x) QGx RGx -> is_chhr (csnd x) QHx RHx -> is_chhr (cfst y) QGy RGy -> is_chhr (csnd y) QHy RHy ->
  let T := transport_extr QGx RGx QHx RHx QGy RGy QHy RHy in
  [/\ horizontal y (T xi), metric y (T xi) (T zeta) = metric x xi zeta,
      transport_coords (obtain_intr QGx RGx QHx RHx xi) = obtain_intr QGy RGy QHy RHy (T xi) &
      horizontal x xi -> transport_extr QGy RGy QHy RHy QGx RGx QHx RHx (T xi) = xi].
Proof. exact (@fact_transport R r a b x y QGx RGx QHx RHx QGy RGy QHy RHy xi zeta). Qed.
Print Assumptions C153_complex_fixed_rank_transport_partial.
(** Refuted for the inverse transport of extrinsic vectors: it only projects at x, and does not undo the
    transport. *)
Theorem C153_complex_fixed_rank_inverse_refuted (R : rcfType) : ~ (forall (x y : cpair R 1 0 0) QGx RGx QHx RHx QGy RGy QHy RHy xi,
  is_point x -> is_point y -> is_chhr (cfst x) QGx RGx -> is_chhr (csnd x) QHx RHx ->
  is_chhr (cfst y) QGy RGy -> is_chhr (csnd y) QHy RHy -> horizontal x xi ->
  inverse_transport_extr QGx RGx QHx RHx QGy RGy QHy RHy (transport_extr QGx RGx QHx RHx QGy RGy QHy RHy xi) = xi).
Proof. exact (@inverse_refuted R). Qed.
Print Assumptions C153_complex_fixed_rank_inverse_refuted.
Theorem C153_complex_fixed_rank_inverse (R : rcfType) (r a b : nat) CHOL (x : cpair R r a b) QGx RGx QHx RHx QGy RGy QHy RHy
  (xiy : cpair R r a b) : cchol_ok CHOL -> is_point x -> is_chhr (cfst x) QGx RGx -> is_chhr (csnd x) QHx RHx ->
  inverse_transport_extr QGx RGx QHx RHx QGy RGy QHy RHy xiy = projection CHOL x xiy.
Proof. exact (@fact_inverse R r a b CHOL x QGx RGx QHx RHx QGy RGy QHy RHy xiy). Qed.
Print Assumptions C153_complex_fixed_rank_inverse.
(** Two distinct points with their factorisations. *)
Example C153_example (R : rcfType) : is_point (wx R) /\ is_point (wy R) /\
  is_chhr (cfst (wx R)) 1%:M (const_mx 1) /\ is_chhr (cfst (wy R)) 1%:M (const_mx (1 + 1)).
Proof. exact (conj (wx_point R) (conj (wy_point R) (conj (hhr1 (one_real R)) (hhr1 (two_real R))))). Qed.
