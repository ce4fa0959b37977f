(** Properties C154-C160: Hermitian positive semidefinite matrices of fixed rank
    (Manifolds/CSymFixedRankQ.cpp). *)
From mathcomp Require Import all_ssreflect all_algebra.
From mathcomp.real_closed Require Import complex.
From Coq Require Import String.
From Verif Require Import StiefelModel StiefelSpec CStieSpec CFrSpec CSymFRModel CSymFRSpec CSymFRProofs CSymFRHess CSymFRRetr CSymFRFacts CSymFRWitness.
From Verif Require CDecomp.
Import Order.TTheory GRing.Theory Num.Theory.
Set Implicit Arguments.
Unset Strict Implicit.
Local Open Scope ring_scope.
Local Open Scope complex_scope.

(** C154: the inner products are those of the header file; the metric EUC is the inner product of the
    changes of the represented matrix; each is positive definite on the horizontal vectors. *)
Theorem C154_metric (R : rcfType) (p k : nat) (s : csf_metric) (x eta xi : 'M[R[i]]_(p + k, p)) :
  metric s x eta xi = g_of s x eta xi /\ g_of s x eta xi = g_of s x xi eta /\
  g_of CSF_EUC x eta xi = cinner (lift x eta) (lift x xi).
Proof. exact (@fact_metric R p k s x eta xi). Qed.
Print Assumptions C154_metric.
Theorem C154_positive (R : rcfType) (p k : nat) (x : 'M[R[i]]_(p + k, p)) (Hx : cfull_rank x) (s : csf_metric) eta :
  horizontal x eta -> 0 <= g_of s x eta eta /\ (g_of s x eta eta = 0 -> eta = 0).
Proof. exact (@g_pos R p k x Hx s eta). Qed.
Print Assumptions C154_positive.
(** The projection takes away a vertical vector and leaves a horizontal one; it is the only such split;
    the change of the represented matrix and inner products with horizontal vectors stay. *)
Theorem C154_projection (R : rcfType) (p k : nat) s (x eta : 'M[R[i]]_(p + k, p)) :
  cfull_rank x -> let h := projection x eta in
  [/\ horizontal x h, vertical x (eta - h), lift x h = lift x eta,
      forall h', horizontal x h' -> vertical x (eta - h') -> h' = h &
      forall xi, horizontal x xi -> g_of s x h xi = g_of s x eta xi].
Proof. exact (@fact_projection R p k s x eta). Qed.
Print Assumptions C154_projection.
(** For every size there is a point ... *)
Example C154_example (R : rcfType) (p k : nat) : cfull_rank (col_mx 1%:M 0 : 'M[R[i]]_(p + k, p)).
Proof. exact (@some_point R p k). Qed.
(** ... and a vector that is not horizontal, with its projection. *)
Example C154_projection_example (R : rcfType) : cfull_rank (wy R) /\
  projection (wy R) (we R) = wy R *m wS R /\ we R = wy R *m (wS R + wW R).
Proof. exact (conj (@wy_full R) (conj (@we_proj R) (@we_split R))). Qed.

(** C155: the gradient is horizontal, its inner products are directional derivatives, and it is the
    only such vector.  The Euclidean gradient of a function of x x^H does not change along the orbit. *)
Theorem C155_gradient (R : rcfType) (p k : nat) s (x egf : 'M[R[i]]_(p + k, p)) :
  cfull_rank x -> invariant_at x egf ->
  let g := gradient s x egf in
  [/\ horizontal x g, forall xi, horizontal x xi -> g_of s x g xi = cinner egf xi &
      forall h, horizontal x h -> (forall xi, horizontal x xi -> g_of s x h xi = cinner egf xi) -> h = g].
Proof. exact (@fact_gradient R p k s x egf). Qed.
Print Assumptions C155_gradient.
Example C155_gradient_example (R : rcfType) (p k : nat) (x : 'M[R[i]]_(p + k, p)) (G : 'M[R[i]]_(p + k)) :
  hermitian G -> invariant_at x ((2%:R)%:C *: (G *m x)).
Proof. exact (@fact_invariant R p k x G). Qed.

(** C156: the Hessian is horizontal. *)
Theorem C156_horizontal (R : rcfType) (p k : nat) s (x egf eta exix : 'M[R[i]]_(p + k, p)) :
  cfull_rank x -> horizontal x (hessian s x egf eta exix).
Proof. exact (@fact_hess_hor R p k s x egf eta exix). Qed.
Print Assumptions C156_horizontal.
(** Metric EUC, f(x) = F(x x^H), G and H the gradient of F and its derivative along lift x eta: the
    second derivative of F along a curve of matrices of rank p whose acceleration is normal.  Such
    an acceleration exists. *)
Theorem C156_euclidean (R : rcfType) (p k : nat) (x : 'M[R[i]]_(p + k, p)) (Hx : cfull_rank x)
  (G H : 'M[R[i]]_(p + k)) (eta xi zeta : 'M[R[i]]_(p + k, p))
  (A := eta *m adj xi + xi *m adj eta + x *m adj zeta + zeta *m adj x) :
  hermitian G -> hermitian H -> horizontal x xi -> normal_at x A ->
  g_of CSF_EUC x (hessian CSF_EUC x ((2%:R)%:C *: (G *m x)) eta ((2%:R)%:C *: (H *m x + G *m eta))) xi =
  cinner H (lift x xi) + cinner G A.
Proof. exact (@hess_euc_normal R p k x Hx G H eta xi zeta). Qed.
Print Assumptions C156_euclidean.
Theorem C156_acceleration (R : rcfType) (p k : nat) (x : 'M[R[i]]_(p + k, p)) (Hx : cfull_rank x)
  (eta xi : 'M[R[i]]_(p + k, p)) :
  exists zeta, normal_at x (eta *m adj xi + xi *m adj eta + x *m adj zeta + zeta *m adj x).
Proof. exact (@normal_exists R p k x Hx eta xi). Qed.
Print Assumptions C156_acceleration.
(** Metric HGZ: the second derivative corrected by the Christoffel symbols of the metric (Koszul);
    the derivative of the metric is dg_hgz. *)
Theorem C156_hgz (R : rcfType) (p k : nat) (x : 'M[R[i]]_(p + k, p)) (Hx : cfull_rank x)
  (egf eta xi exix : 'M[R[i]]_(p + k, p)) : horizontal x xi ->
  g_of CSF_HGZ x (hessian CSF_HGZ x egf eta exix) xi = cinner exix xi -
    half R * (dg_hgz x eta xi (gradient CSF_HGZ x egf) + dg_hgz x xi eta (gradient CSF_HGZ x egf)
      - dg_hgz x (gradient CSF_HGZ x egf) eta xi).
Proof. exact (@hess_hgz_form R p k x Hx egf eta xi exix). Qed.
Print Assumptions C156_hgz.
Theorem C156_metric_derivative (R : rcfType) (p k : nat) (x z : 'M[R[i]]_(p + k, p)) (t : R) (eta xi : 'M[R[i]]_(p + k, p)) :
  g_of CSF_HGZ (x + t%:C *: z) eta xi = g_of CSF_HGZ x eta xi + t * dg_hgz x z eta xi + t ^+ 2 * g_of CSF_HGZ z eta xi.
Proof. exact (@dg_hgzE R p k x z t eta xi). Qed.
Print Assumptions C156_metric_derivative.
(** The Hessian is self-adjoint. *)
Theorem C156_self_adjoint_euclidean (R : rcfType) (p k : nat) (x : 'M[R[i]]_(p + k, p)) (Hx : cfull_rank x)
  (G : 'M[R[i]]_(p + k)) (Hop : 'M[R[i]]_(p + k) -> 'M[R[i]]_(p + k)) (eta xi : 'M[R[i]]_(p + k, p)) :
  hermitian G -> (forall B, hermitian B -> hermitian (Hop B)) ->
  (forall A B, hermitian A -> hermitian B -> cinner (Hop A) B = cinner A (Hop B)) ->
  horizontal x eta -> horizontal x xi ->
  let E th := (2%:R)%:C *: (Hop (lift x th) *m x + G *m th) in
  g_of CSF_EUC x (hessian CSF_EUC x ((2%:R)%:C *: (G *m x)) eta (E eta)) xi =
  g_of CSF_EUC x eta (hessian CSF_EUC x ((2%:R)%:C *: (G *m x)) xi (E xi)).
Proof. exact (@hess_sym_euc R p k x Hx G Hop eta xi). Qed.
Print Assumptions C156_self_adjoint_euclidean.
Theorem C156_self_adjoint (R : rcfType) (p k : nat) (x : 'M[R[i]]_(p + k, p)) (Hx : cfull_rank x)
  (egf eta xi e f : 'M[R[i]]_(p + k, p)) :
  horizontal x eta -> horizontal x xi -> cinner e xi = cinner f eta ->
  g_of CSF_HGZ x (hessian CSF_HGZ x egf eta e) xi = g_of CSF_HGZ x eta (hessian CSF_HGZ x egf xi f).
Proof. exact (@hess_sym R p k x Hx egf eta xi e f). Qed.
Print Assumptions C156_self_adjoint.
Example C156_example (R : rcfType) : cfull_rank (wx R) /\ horizontal (wx R) (we R) /\ hermitian (we R : 'M[R[i]]_2).
Proof. exact (conj (wx_full (R := R)) (conj (@we_hor R) (@we_sym R))). Qed.

(** C157: coordinates in an orthonormal basis of the horizontal vectors. *)
Theorem C157_coordinates (R : rcfType) (p k : nat) s (x : 'M[R[i]]_(p + k, p)) Q r eta xi :
  cfull_rank x -> is_chhr x Q r -> horizontal x eta -> horizontal x xi ->
  [/\ size (obtain_intr s Q r eta) = intr_dim p k,
      vdot (obtain_intr s Q r eta) (obtain_intr s Q r xi) = g_of s x eta xi &
      obtain_extr s Q r (obtain_intr s Q r eta) = eta].
Proof. exact (@fact_coords R p k s x Q r eta xi). Qed.
Print Assumptions C157_coordinates.
Theorem C157_onto (R : rcfType) (p k : nat) s (x : 'M[R[i]]_(p + k, p)) Q r v :
  cfull_rank x -> is_chhr x Q r -> size v = intr_dim p k ->
  horizontal x (obtain_extr s Q r v) /\ obtain_intr s Q r (obtain_extr s Q r v) = v.
Proof. exact (@fact_coords_onto R p k s x Q r v). Qed.
Print Assumptions C157_onto.
(** For every point there is a Householder decomposition. *)
Example C157_example (R : rcfType) (p k : nat) (x : 'M[R[i]]_(p + k, p)) : exists Q r, is_chhr x Q r.
Proof. exact (CDecomp.hhr_exists x). Qed.

(** C158: the retraction, for 2p <= n.  T = x x^H + lift x eta is the tangent vector's end point.  The
    result represents the positive semidefinite matrix nearest to T, it is the representative nearest
    to x, and it has full rank if x and eta together have, or if T is positive definite on the range of
    x.  The full statement asks for a point of the manifold always: refuted below. *)
Theorem C158_nearest_partial (R : rcfType) (p k : nat) QR EIG SVD (HR : @routines R p k QR EIG SVD) (Hk : (p <= k)%N)
  (x eta : 'M[R[i]]_(p + k, p)) : cfull_rank x -> exists y, [/\ retraction QR EIG SVD x eta = Some y,
  forall P, cpsd P -> cinner (gram x + lift x eta - gram y) (gram x + lift x eta - gram y) + cinner (P - gram y) (P - gram y)
    <= cinner (gram x + lift x eta - P) (gram x + lift x eta - P),
  forall O, unitary O -> cinner (y - x) (y - x) <= cinner (y *m O - x) (y *m O - x),
  cposdef (adj x *m (gram x + lift x eta) *m x) -> cfull_rank y & cfull_rank (row_mx x eta) -> cfull_rank y].
Proof. exact (@fact_retraction R p k QR EIG SVD HR Hk x eta). Qed.
Print Assumptions C158_nearest_partial.
Theorem C158_zero_partial (R : rcfType) (p k : nat) QR EIG SVD (HR : @routines R p k QR EIG SVD)
  (x : 'M[R[i]]_(p + k, p)) (Hx : cfull_rank x) : (p <= k)%N -> retraction QR EIG SVD x 0 = Some x.
Proof. exact (@retr_zero R p k QR EIG SVD HR x Hx). Qed.
Print Assumptions C158_zero_partial.
Theorem C158_first_order_partial (R : rcfType) (p k : nat) QR EIG SVD (HR : @routines R p k QR EIG SVD)
  (x eta : 'M[R[i]]_(p + k, p)) (y : R -> 'M[R[i]]_(p + k, p)) : (p <= k)%N ->
  (forall t, retraction QR EIG SVD x (t%:C *: eta) = Some (y t)) ->
  csecond_order (fun t => gram (y t)) (fun t => gram x + t%:C *: lift x eta).
Proof. exact (@retr_second R p k QR EIG SVD HR x eta y). Qed.
Print Assumptions C158_first_order_partial.
Theorem C158_collapse_refuted (R : rcfType) (p k : nat) QR EIG SVD (HR : @routines R p k QR EIG SVD) (Hk : (p <= k)%N)
  (x : 'M[R[i]]_(p + k, p)) : (0 < p)%N -> cfull_rank x -> exists eta, horizontal x eta /\
  exists y, retraction QR EIG SVD x eta = Some y /\ ~ cfull_rank y.
Proof. exact (@fact_collapse R p k QR EIG SVD HR Hk x). Qed.
Print Assumptions C158_collapse_refuted.
Theorem C158_wide_refuted (R : rcfType) (p k : nat) QR EIG SVD (x eta : 'M[R[i]]_(p + k, p)) : (k < p)%N ->
  retraction QR EIG SVD x eta = None.
Proof. exact (@retr_narrow R p k QR EIG SVD x eta). Qed.
Print Assumptions C158_wide_refuted.
Example C158_example (R : rcfType) (p k : nat) : (p <= k)%N ->
  (exists QR EIG SVD, @routines R p k QR EIG SVD) /\ cfull_rank (col_mx 1%:M 0 : 'M[R[i]]_(p + k, p)).
Proof. exact (fun H => conj (some_routines R H) (@some_point R p k)). Qed.
(** Along multiples of x: c x is reached for every c >= 0. *)
Example C158_along_example (R : rcfType) (p k : nat) QR EIG SVD (HR : @routines R p k QR EIG SVD) (Hk : (p <= k)%N)
  (x : 'M[R[i]]_(p + k, p)) (c : R) : cfull_rank x -> 0 <= c ->
  retraction QR EIG SVD x ((half R * (c ^+ 2 - 1))%:C *: x) = Some (c%:C *: x).
Proof. exact (@along R p k QR EIG SVD HR Hk x c). Qed.

(** C159: vector transport by parallelization keeps inner products. *)
Theorem C159_parallelization (R : rcfType) (p k : nat) s (x y : 'M[R[i]]_(p + k, p)) Qx rx Qy ry eta xi :
  cfull_rank x -> is_chhr x Qx rx -> cfull_rank y -> is_chhr y Qy ry -> horizontal x eta -> horizontal x xi ->
  let T th := obtain_extr s Qy ry (transport_coords CSF_PARALLELIZATION s Qx rx Qy ry (obtain_intr s Qx rx th)) in
  [/\ horizontal y (T eta), horizontal y (T xi) & g_of s y (T eta) (T xi) = g_of s x eta xi].
Proof. exact (@fact_parallel R p k s x y Qx rx Qy ry eta xi). Qed.
Print Assumptions C159_parallelization.
(** Transport by projection on coordinates: what the code computes are the numbers that ObtainIntr
    returns for the vector itself; for a vector horizontal at y they are its coordinates.  They are
    not those of the projection in general. *)
Theorem C159_projection_partial (R : rcfType) (p k : nat) s (x : 'M[R[i]]_(p + k, p)) Qx rx Qy ry eta :
  cfull_rank x -> is_chhr x Qx rx -> horizontal x eta ->
  transport_coords CSF_PROJECTION s Qx rx Qy ry (obtain_intr s Qx rx eta) = obtain_intr s Qy ry eta.
Proof. exact (@fact_project_same R p k s x Qx rx Qy ry eta). Qed.
Print Assumptions C159_projection_partial.
Theorem C159_projection_refuted (R : rcfType) : ~ (forall (x y : 'M[R[i]]_(2 + 0, 2)) Qx rx Qy ry eta,
  cfull_rank x -> is_chhr x Qx rx -> cfull_rank y -> is_chhr y Qy ry -> horizontal x eta ->
  transport_coords CSF_PROJECTION CSF_HGZ Qx rx Qy ry (obtain_intr CSF_HGZ Qx rx eta) =
  obtain_intr CSF_HGZ Qy ry (transport_extr y eta)).
Proof. exact (@transport_refuted R). Qed.
Print Assumptions C159_projection_refuted.
(** The differentiated retraction is right at the zero vector, on vectors and on coordinates ... *)
Theorem C159_diff_retraction_partial (R : rcfType) (p k : nat) QR EIG SVD (HR : @routines R p k QR EIG SVD) (Hk : (p <= k)%N)
  (x xi : 'M[R[i]]_(p + k, p)) (Y : R -> 'M[R[i]]_(p + k, p)) : cfull_rank x ->
  (forall t, retraction QR EIG SVD x (t%:C *: xi) = Some (Y t)) ->
  csecond_order (fun t => gram (Y t)) (fun t => gram x + t%:C *: lift x (diff_retraction x xi)).
Proof. exact (@fact_diff_zero R p k QR EIG SVD HR Hk x xi Y). Qed.
Print Assumptions C159_diff_retraction_partial.
Theorem C159_diff_coordinates_partial (R : rcfType) (p k : nat) s (x y : 'M[R[i]]_(p + k, p)) Qx rx Qy ry eta :
  cfull_rank x -> is_chhr x Qx rx -> horizontal x eta ->
  diff_retraction_coords s Qx rx Qy ry y (obtain_intr s Qx rx eta) = obtain_intr s Qy ry (diff_retraction y eta).
Proof. exact (@fact_diff_coords R p k s x y Qx rx Qy ry eta). Qed.
Print Assumptions C159_diff_coordinates_partial.
(** ... and wrong at others, for every x and p > 0. *)
Theorem C159_diff_retraction_refuted (R : rcfType) (p k : nat) QR EIG SVD (HR : @routines R p k QR EIG SVD) (Hk : (p <= k)%N)
  (x : 'M[R[i]]_(p + k, p)) : (0 < p)%N -> cfull_rank x ->
  exists eta xi y (Y : R -> 'M[R[i]]_(p + k, p)),
  [/\ horizontal x eta, horizontal x xi, retraction QR EIG SVD x eta = Some y,
      forall t, retraction QR EIG SVD x (eta + t%:C *: xi) = Some (Y t) &
      ~ first_order (fun t => gram (Y t)) (fun t => gram y + t%:C *: lift y (diff_retraction y xi))].
Proof. exact (@fact_diff R p k QR EIG SVD HR Hk x). Qed.
Print Assumptions C159_diff_retraction_refuted.
Example C159_example (R : rcfType) : cfull_rank (wx R) /\ cfull_rank (wy R) /\
  is_chhr (wx R) 1%:M (1%:M : 'M[R[i]]_2) /\ is_chhr (wy R) 1%:M (wd R) /\ horizontal (wx R) (we R).
Proof. exact (conj (@wx_full R) (conj (@wy_full R) (conj (@wx_hhr R) (conj (@wy_hhr R) (@we_hor R))))). Qed.

(** C160: the name that CheckParams prints.  Right for EUC; for HGZ it is not a name of a metric of the
    class (it is that of the class of real matrices). *)
Theorem C160_name_partial : printed_metric CSF_EUC = metric_name CSF_EUC.
Proof. exact name_partial. Qed.
Print Assumptions C160_name_partial.
Theorem C160_refuted : forall s, printed_metric CSF_HGZ <> metric_name s.
Proof. exact name_refuted. Qed.
Print Assumptions C160_refuted.
(** The parameter sets offer every combination of a metric and a vector transport exactly once. *)
Theorem C160_parameter_sets_partial (m : csf_metric) (t : csf_transport) : exists! i, (1 <= i <= 4)%N /\ param_set i = (m, t).
Proof. exact (@param_sets m t). Qed.
Print Assumptions C160_parameter_sets_partial.
