(** Properties C128-C134: matrices of fixed rank in two factors (Manifolds/FixedRankQ2F.cpp). *)
From mathcomp Require Import all_ssreflect all_algebra.
From Verif Require Import StiefelModel StiefelSpec SPDSpec SymFRSpec Decomp Q2FModel Q2FSpec Q2FProofs Q2FIntr Q2FRetr Q2FFacts.
Import Order.TTheory GRing.Theory Num.Theory.
Set Implicit Arguments.
Unset Strict Implicit.
Local Open Scope ring_scope.

(** C128: the inner product is that of the changes of the represented matrix. *)
Theorem C128_metric (R : rcfType) (r a b : nat) (x eta xi : pair_ R r a b) :
  metric x eta xi = inner (lift x eta) (lift x xi).
Proof. exact (@metricE R r a b x eta xi). Qed.
Print Assumptions C128_metric.
(** It vanishes exactly on the directions of the orbit, and is positive definite on the horizontal ones. *)
Theorem C128_positive (R : rcfType) (r a b : nat) (x : pair_ R r a b) : is_point x ->
  (forall v, vertical x v <-> metric x v v = 0) /\
  forall eta, horizontal x eta -> 0 <= metric x eta eta /\ (metric x eta eta = 0 -> eta = zerop R r a b).
Proof. exact (@fact_positive R r a b x). Qed.
Print Assumptions C128_positive.
(** The projection is the only split into a horizontal and a vertical vector. *)
Theorem C128_projection (R : rcfType) (r a b : nat) CHOL (x eta : pair_ R r a b) : chol_ok CHOL -> is_point x ->
  let h := projection CHOL x eta in
  [/\ horizontal x h, vertical x (subp eta h), lift x h = lift x eta &
      forall h', horizontal x h' -> vertical x (subp eta h') -> h' = h].
Proof. exact (@fact_projection R r a b CHOL x eta). Qed.
Print Assumptions C128_projection.
(** The hypotheses, for every size: a Cholesky routine and a point. *)
Example C128_example (R : rcfType) (r a b : nat) : (exists CHOL, chol_ok (R := R) (r := r) CHOL) /\
  is_point (Pair (col_mx 1%:M 0) (col_mx 1%:M 0) : pair_ R r a b).
Proof. exact (conj (chol_function R r) (@some_point R r a b)). Qed.

(** C129: for a Euclidean gradient that vanishes on the orbit, as that of a function of the represented
    matrix does, the gradient is horizontal and represents the derivative; it is the only such vector. *)
Theorem C129_gradient (R : rcfType) (r a b : nat) CHOL (x egf : pair_ R r a b) : chol_ok CHOL -> is_point x ->
  invariant_at x egf -> let g := gradient CHOL x egf in
  [/\ horizontal x g, forall xi, metric x g xi = pairing egf xi &
      forall h, horizontal x h -> (forall xi, horizontal x xi -> metric x h xi = pairing egf xi) -> h = g].
Proof. exact (@fact_gradient R r a b CHOL x egf). Qed.
Print Assumptions C129_gradient.
(** In terms of the represented matrix: its change along the gradient is the tangential part of the
    gradient of the function. *)
Theorem C129_product (R : rcfType) (r a b : nat) CHOL (x : pair_ R r a b) (E : 'M[R]_(r + a, r + b)) :
  chol_ok CHOL -> is_point x ->
  invariant_at x (egrad_of x E) /\ normal_at x (E - lift x (gradient CHOL x (egrad_of x E))).
Proof. exact (@fact_gradient_product R r a b CHOL x E). Qed.
Print Assumptions C129_product.

(** C130: the action of the Hessian is horizontal and is the second derivative along every curve of
    represented matrices whose second derivative at the point is normal, polarised: D is the derivative
    of the gradient E of the function along eta, A the mixed second derivative of the curve. *)
Theorem C130_hessian (R : rcfType) (r a b : nat) CHOL (x : pair_ R r a b) (E D : 'M[R]_(r + a, r + b))
  (eta xi zeta : pair_ R r a b) (A := fst_ xi *m (snd_ eta)^T + fst_ eta *m (snd_ xi)^T + lift x zeta) :
  chol_ok CHOL -> is_point x -> normal_at x A ->
  metric x (hessian CHOL x (egrad_of x E) eta (egrad_diff x eta E D)) xi = inner D (lift x xi) + inner E A.
Proof. exact (@fact_hessian R r a b CHOL x E D eta xi zeta). Qed.
Print Assumptions C130_hessian.
Theorem C130_horizontal (R : rcfType) (r a b : nat) CHOL (x egf eta exix : pair_ R r a b) : chol_ok CHOL ->
  is_point x -> horizontal x (hessian CHOL x egf eta exix).
Proof. exact (fun HC Hx => @hess_hor R r a b CHOL HC x Hx egf eta exix). Qed.
Print Assumptions C130_horizontal.
(** Such an acceleration always exists; the input is the derivative of the Euclidean gradient. *)
Theorem C130_acceleration (R : rcfType) (r a b : nat) (x : pair_ R r a b) (X : 'M[R]_(r + a, r + b)) :
  is_point x -> exists zeta, normal_at x (X + lift x zeta).
Proof. exact (fun Hx => @normal_exists R r a b x Hx X). Qed.
Print Assumptions C130_acceleration.
Theorem C130_input (R : rcfType) (r a b : nat) (x eta : pair_ R r a b) (E D : 'M[R]_(r + a, r + b)) (t : R) :
  egrad_of (addp x (scalep t eta)) (E + t *: D) =
  addp (addp (egrad_of x E) (scalep t (egrad_diff x eta E D))) (scalep (t ^+ 2) (egrad_of eta D)).
Proof. exact (@fact_egrad_diff R r a b x eta E D t). Qed.
Print Assumptions C130_input.
(** It is self-adjoint when the second derivative of the function is. *)
Theorem C130_self_adjoint (R : rcfType) (r a b : nat) CHOL (x : pair_ R r a b) (E D1 D2 : 'M[R]_(r + a, r + b))
  (eta xi : pair_ R r a b) : chol_ok CHOL -> is_point x -> inner D1 (lift x xi) = inner (lift x eta) D2 ->
  metric x (hessian CHOL x (egrad_of x E) eta (egrad_diff x eta E D1)) xi =
  metric x eta (hessian CHOL x (egrad_of x E) xi (egrad_diff x xi E D2)).
Proof. exact (@fact_self R r a b CHOL x E D1 D2 eta xi). Qed.
Print Assumptions C130_self_adjoint.

(** C131: the coordinates are an isometry between the horizontal vectors and all lists of the stated
    length; for any vector they are those of its projection. *)
Theorem C131_coordinates (R : rcfType) (r a b : nat) CHOL (x : pair_ R r a b) QG RG QH RH (eta xi : pair_ R r a b) :
  chol_ok CHOL -> is_point x -> is_hhr (fst_ x) QG RG -> is_hhr (snd_ x) QH RH ->
  let f := obtain_intr QG RG QH RH in let g := obtain_extr QG RG QH RH in
  [/\ size (f eta) = intr_dim r a b, vdot (f eta) (f xi) = metric x eta xi, g (f eta) = projection CHOL x eta,
      horizontal x eta -> g (f eta) = eta &
      forall v, size v = intr_dim r a b -> horizontal x (g v) /\ f (g v) = v].
Proof. exact (@fact_coords R r a b CHOL x QG RG QH RH eta xi). Qed.
Print Assumptions C131_coordinates.
Theorem C131_dimension (r a b : nat) : intr_dim r a b = (r * r + r * a + r * b)%N.
Proof. exact (dimE r a b). Qed.
Print Assumptions C131_dimension.
Example C131_example (R : rcfType) (r a b : nat) (x : pair_ R r a b) :
  exists QG RG QH RH, is_hhr (fst_ x) QG RG /\ is_hhr (snd_ x) QH RH.
Proof. exact (@some_hhr R r a b x). Qed.

(** C132: the represented matrix of the retraction starts at that of x and moves along the change of the
    represented matrix, up to second order; small vectors stay on the manifold. *)
Theorem C132_retraction_partial (R : rcfType) (r a b : nat) (x : pair_ R r a b) : is_point x ->
  [/\ retraction x (zerop R r a b) = x,
      forall eta, product (retraction x eta) = product x + lift x eta + fst_ eta *m (snd_ eta)^T,
      forall eta, second_order (fun t => product (retraction x (scalep t eta))) (fun t => product x + t *: lift x eta) &
      exists2 d, 0 < d & forall eta, pairing eta eta < d -> is_point (retraction x eta)].
Proof.
exact (fun Hx => And4 (retr_zero x) (fun eta => retr_product x eta) (fun eta => retr_second x eta) (retr_near Hx)).
Qed.
Print Assumptions C132_retraction_partial.
(** It is refuted for all vectors: at every point some horizontal vector leads off the manifold. *)
Theorem C132_retraction_refuted (R : rcfType) (r a b : nat) (x : pair_ R r a b) : (0 < r)%N -> is_point x ->
  exists eta, [/\ horizontal x eta, ~ is_point (retraction x eta) & product x + lift x eta = - product x].
Proof. exact (@retr_collapse R r a b x). Qed.
Print Assumptions C132_retraction_refuted.
(** The differentiated retraction is horizontal at the new point, and the derivative in terms of the
    represented matrix. *)
Theorem C132_differentiated (R : rcfType) (r a b : nat) CHOL (x eta xi : pair_ R r a b) (y := retraction x eta) :
  chol_ok CHOL -> is_point y -> horizontal y (diff_retraction CHOL y xi) /\
  second_order (fun t => product (retraction x (addp eta (scalep t xi))))
    (fun t => product y + t *: lift y (diff_retraction CHOL y xi)).
Proof. exact (@diff_second R r a b CHOL x eta xi). Qed.
Print Assumptions C132_differentiated.

(** C133: the retraction by projection, when both sides of the matrix are at least 2 r: the result
    represents a matrix nearest to that of x plus its change among all products of such factors, and is a
    point exactly if that sum has rank at least r. *)
Theorem C133_nearest_partial (R : rcfType) (r a b : nat) QRa QRb SVD :
  (forall A : 'M[R]_(r + a, r + r), qr_at QRa A) -> (forall A : 'M[R]_(r + b, r + r), qr_at QRb A) ->
  (forall A : 'M[R]_(r + r), svd_desc SVD A) -> (r <= a)%N -> (r <= b)%N -> forall x eta : pair_ R r a b,
  exists y, [/\ proj_retraction QRa QRb SVD x eta = Some y,
    forall z, inner (product x + lift x eta - product y) (product x + lift x eta - product y) <=
      inner (product x + lift x eta - product z) (product x + lift x eta - product z) &
    is_point y <-> (r <= \rank (product x + lift x eta)%R)%N].
Proof. exact (@proj_retr_spec R r a b QRa QRb SVD). Qed.
Print Assumptions C133_nearest_partial.
(** So it follows the change of the represented matrix up to second order. *)
Theorem C133_second_order_partial (R : rcfType) (r a b : nat) QRa QRb SVD :
  (forall A : 'M[R]_(r + a, r + r), qr_at QRa A) -> (forall A : 'M[R]_(r + b, r + r), qr_at QRb A) ->
  (forall A : 'M[R]_(r + r), svd_desc SVD A) -> (r <= a)%N -> (r <= b)%N ->
  forall (x eta : pair_ R r a b) (y : R -> pair_ R r a b),
  (forall t, proj_retraction QRa QRb SVD x (scalep t eta) = Some (y t)) ->
  second_order (fun t => product (y t)) (fun t => product x + t *: lift x eta).
Proof. exact (@proj_retr_second R r a b QRa QRb SVD). Qed.
Print Assumptions C133_second_order_partial.
(** Refuted otherwise: with a side shorter than 2 r the arrays are read out of bounds, ... *)
Theorem C133_narrow_refuted (R : rcfType) (r a b : nat) QRa QRb SVD (x eta : pair_ R r a b) :
  (a < r)%N \/ (b < r)%N -> proj_retraction QRa QRb SVD x eta = None.
Proof. exact (@narrow R r a b QRa QRb SVD x eta). Qed.
Print Assumptions C133_narrow_refuted.
(** ... and at every point some horizontal vector leads off the manifold. *)
Theorem C133_collapse_refuted (R : rcfType) (r a b : nat) QRa QRb SVD :
  (forall A : 'M[R]_(r + a, r + r), qr_at QRa A) -> (forall A : 'M[R]_(r + b, r + r), qr_at QRb A) ->
  (forall A : 'M[R]_(r + r), svd_desc SVD A) -> (r <= a)%N -> (r <= b)%N -> (0 < r)%N ->
  forall x : pair_ R r a b, is_point x ->
  exists eta y, [/\ horizontal x eta, proj_retraction QRa QRb SVD x eta = Some y & ~ is_point y].
Proof. exact (@proj_collapse R r a b QRa QRb SVD). Qed.
Print Assumptions C133_collapse_refuted.
Example C133_example (R : rcfType) (r a b : nat) : (r <= a)%N -> (r <= b)%N -> exists QRa QRb SVD,
  [/\ forall A : 'M[R]_(r + a, r + r), qr_at QRa A, forall A : 'M[R]_(r + b, r + r), qr_at QRb A &
      forall A : 'M[R]_(r + r), svd_desc SVD A].
Proof. exact (@some_routines R r a b). Qed.

(** C134: the transport keeps inner products, ends in horizontal vectors, copies coordinates, and the
    transport from y to x undoes it. *)
Theorem C134_transport_partial (R : rcfType) (r a b : nat) (x y : pair_ R r a b) QGx RGx QHx RHx QGy RGy QHy RHy
  (xi zeta : pair_ R r a b) : is_point x -> is_point y ->
  is_hhr (fst_ x) QGx RGx -> is_hhr (snd_ x) QHx RHx -> is_hhr (fst_ y) QGy RGy -> is_hhr (snd_ y) QHy RHy ->
  let T := transport_extr QGx RGx QHx RHx QGy RGy QHy RHy in
  [/\ horizontal y (T xi), metric y (T xi) (T zeta) = metric x xi zeta,
      transport_coords (obtain_intr QGx RGx QHx RHx xi) = obtain_intr QGy RGy QHy RHy (T xi) &
      horizontal x xi -> transport_extr QGy RGy QHy RHy QGx RGx QHx RHx (T xi) = xi].
Proof. exact (@fact_transport R r a b x y QGx RGx QHx RHx QGy RGy QHy RHy xi zeta). Qed.
Print Assumptions C134_transport_partial.
(** Refuted for the inverse transport of extrinsic vectors: it only projects at x, and does not undo the
    transport. *)
Theorem C134_inverse_refuted (R : rcfType) : ~ (forall (x y : pair_ R 1 0 0) QGx RGx QHx RHx QGy RGy QHy RHy xi,
  is_point x -> is_point y -> is_hhr (fst_ x) QGx RGx -> is_hhr (snd_ x) QHx RHx ->
  is_hhr (fst_ y) QGy RGy -> is_hhr (snd_ y) QHy RHy -> horizontal x xi ->
  inverse_transport_extr QGx RGx QHx RHx QGy RGy QHy RHy (transport_extr QGx RGx QHx RHx QGy RGy QHy RHy xi) = xi).
Proof. exact (@inverse_refuted R). Qed.
Print Assumptions C134_inverse_refuted.
Theorem C134_inverse (R : rcfType) (r a b : nat) CHOL (x : pair_ R r a b) QGx RGx QHx RHx QGy RGy QHy RHy
  (xiy : pair_ R r a b) : chol_ok CHOL -> is_point x -> is_hhr (fst_ x) QGx RGx -> is_hhr (snd_ x) QHx RHx ->
  inverse_transport_extr QGx RGx QHx RHx QGy RGy QHy RHy xiy = projection CHOL x xiy.
Proof. exact (@fact_inverse R r a b CHOL x QGx RGx QHx RHx QGy RGy QHy RHy xiy). Qed.
Print Assumptions C134_inverse.
(** Two distinct points with their factorisations. *)
Example C134_example (R : rcfType) : is_point (wx R) /\ is_point (wy R) /\
  is_hhr (fst_ (wx R)) 1%:M (const_mx 1) /\ is_hhr (fst_ (wy R)) 1%:M (const_mx 2%:R).
Proof. exact (conj (wx_point R) (conj (wy_point R) (conj (hhr1 1) (hhr1 2%:R)))). Qed.
