(** Properties C121-C127: symmetric positive semidefinite matrices of fixed rank
    (Manifolds/SymFixedRankQ.cpp). *)
From mathcomp Require Import all_ssreflect all_algebra.
From Coq Require Import String.
From Verif Require Import StiefelModel StiefelSpec SPDSpec SymFRModel SymFRSpec SymFRProofs SymFRHess SymFRRetr SymFRFacts SymFRWitness.
Import Order.TTheory GRing.Theory Num.Theory.
Set Implicit Arguments.
Unset Strict Implicit.
Local Open Scope ring_scope.

(** C121: the inner products are those of the header file; the metric EUC is the inner product of the
    changes of the represented matrix; each is positive definite on the horizontal vectors. *)
Theorem C121_metric (R : rcfType) (p k : nat) (s : sf_metric) (x eta xi : 'M[R]_(p + k, p)) :
  metric s x eta xi = g_of s x eta xi /\ g_of s x eta xi = g_of s x xi eta /\
  g_of SF_EUC x eta xi = inner (lift x eta) (lift x xi).
Proof. exact (@fact_metric R p k s x eta xi). Qed.
Print Assumptions C121_metric.
Theorem C121_positive (R : rcfType) (p k : nat) (x : 'M[R]_(p + k, p)) (Hx : full_rank x) (s : sf_metric) eta :
  horizontal s x eta -> 0 <= g_of s x eta eta /\ (g_of s x eta eta = 0 -> eta = 0).
Proof. exact (@g_pos R p k x Hx s eta). Qed.
Print Assumptions C121_positive.
(** The projection takes away a vertical vector and leaves a horizontal one; it is the only such split;
    the change of the represented matrix and inner products with horizontal vectors stay. *)
Theorem C121_projection (R : rcfType) (p k : nat) SYL (HS : solves_sylvester SYL) s (x eta : 'M[R]_(p + k, p)) :
  full_rank x -> let h := projection SYL s x eta in
  [/\ horizontal s x h, vertical x (eta - h), lift x h = lift x eta,
      forall h', horizontal s x h' -> vertical x (eta - h') -> h' = h &
      forall xi, horizontal s x xi -> g_of s x h xi = g_of s x eta xi].
Proof. exact (@fact_projection R p k SYL HS s x eta). Qed.
Print Assumptions C121_projection.
(** The hypotheses: for every size there is a solver of Sylvester equations, and a point. *)
Example C121_example (R : rcfType) (p k : nat) :
  (exists SYL : 'M[R]_p -> 'M[R]_p -> 'M[R]_p -> 'M[R]_p, solves_sylvester SYL) /\
  full_rank (col_mx 1%:M 0 : 'M[R]_(p + k, p)).
Proof. exact (conj (some_sylvester R p) (@some_point R p k)). Qed.
(** ... and a vector that is not horizontal, with its projection. *)
Example C121_projection_example (R : rcfType) SYL : full_rank (wy R) /\
  projection SYL SF_HGZ (wy R) (we R) = wy R *m wS R /\ we R = wy R *m (wS R + wW R).
Proof. exact (conj (@wy_full R) (conj (@we_proj R SYL) (@we_split R))). Qed.

(** C122: the gradient is horizontal, its inner products are directional derivatives, and it is the
    only such vector.  The Euclidean gradient of a function of x x^T does not change along the orbit. *)
Theorem C122_gradient (R : rcfType) (p k : nat) SYL (HS : solves_sylvester SYL) s (x egf : 'M[R]_(p + k, p)) :
  full_rank x -> s = SF_QEUC \/ invariant_at x egf ->
  let g := gradient SYL s x egf in
  [/\ horizontal s x g, forall xi, horizontal s x xi -> g_of s x g xi = inner egf xi &
      forall h, horizontal s x h -> (forall xi, horizontal s x xi -> g_of s x h xi = inner egf xi) -> h = g].
Proof. exact (@fact_gradient R p k SYL HS s x egf). Qed.
Print Assumptions C122_gradient.
Example C122_gradient_example (R : rcfType) (p k : nat) (x : 'M[R]_(p + k, p)) (G : 'M[R]_(p + k)) :
  symmetric G -> invariant_at x (2%:R *: (G *m x)).
Proof. exact (@fact_invariant R p k x G). Qed.

(** C123: the Hessian is horizontal. *)
Theorem C123_horizontal (R : rcfType) (p k : nat) SYL (HS : solves_sylvester SYL) s (x egf eta exix : 'M[R]_(p + k, p)) :
  full_rank x -> horizontal s x (hessian SYL s x egf eta exix).
Proof. exact (@fact_hess_hor R p k SYL HS s x egf eta exix). Qed.
Print Assumptions C123_horizontal.
(** Metric EUC, f(x) = F(x x^T), G and H the gradient of F and its derivative along lift x eta: the
    second derivative of F along a curve of matrices of rank p whose acceleration is normal.  Such
    an acceleration exists. *)
Theorem C123_euclidean (R : rcfType) (p k : nat) SYL (x : 'M[R]_(p + k, p)) (Hx : full_rank x)
  (G H : 'M[R]_(p + k)) (eta xi zeta : 'M[R]_(p + k, p))
  (A := eta *m xi^T + xi *m eta^T + x *m zeta^T + zeta *m x^T) :
  symmetric G -> symmetric H -> horizontal SF_EUC x xi -> normal_at x A ->
  g_of SF_EUC x (hessian SYL SF_EUC x (2%:R *: (G *m x)) eta (2%:R *: (H *m x + G *m eta))) xi =
  inner H (lift x xi) + inner G A.
Proof. exact (@hess_euc_normal R p k SYL x Hx G H eta xi zeta). Qed.
Print Assumptions C123_euclidean.
Theorem C123_acceleration (R : rcfType) (p k : nat) (x : 'M[R]_(p + k, p)) (Hx : full_rank x)
  (eta xi : 'M[R]_(p + k, p)) :
  exists zeta, normal_at x (eta *m xi^T + xi *m eta^T + x *m zeta^T + zeta *m x^T).
Proof. exact (@normal_exists R p k x Hx eta xi). Qed.
Print Assumptions C123_acceleration.
(** Metric HGZ: the second derivative corrected by the Christoffel symbols of the metric (Koszul);
    the derivative of the metric is dg_hgz. *)
Theorem C123_hgz (R : rcfType) (p k : nat) SYL (x : 'M[R]_(p + k, p)) (Hx : full_rank x)
  (egf eta xi exix : 'M[R]_(p + k, p)) : horizontal SF_HGZ x xi ->
  g_of SF_HGZ x (hessian SYL SF_HGZ x egf eta exix) xi = inner exix xi -
    half R * (dg_hgz x eta xi (gradient SYL SF_HGZ x egf) + dg_hgz x xi eta (gradient SYL SF_HGZ x egf)
      - dg_hgz x (gradient SYL SF_HGZ x egf) eta xi).
Proof. exact (@hess_hgz_form R p k SYL x Hx egf eta xi exix). Qed.
Print Assumptions C123_hgz.
Theorem C123_metric_derivative (R : rcfType) (p k : nat) (x z : 'M[R]_(p + k, p)) (t : R) (eta xi : 'M[R]_(p + k, p)) :
  g_of SF_HGZ (x + t *: z) eta xi = g_of SF_HGZ x eta xi + t * dg_hgz x z eta xi + t ^+ 2 * g_of SF_HGZ z eta xi.
Proof. exact (@dg_hgzE R p k x z t eta xi). Qed.
Print Assumptions C123_metric_derivative.
(** Metric QEUC: the second derivative itself. *)
Theorem C123_qeuc (R : rcfType) (p k : nat) SYL (HS : solves_sylvester SYL) (x egf eta xi exix : 'M[R]_(p + k, p)) :
  full_rank x -> horizontal SF_QEUC x xi ->
  g_of SF_QEUC x (hessian SYL SF_QEUC x egf eta exix) xi = inner exix xi.
Proof. exact (@fact_hess_qeuc R p k SYL HS x egf eta xi exix). Qed.
Print Assumptions C123_qeuc.
(** The Hessian is self-adjoint. *)
Theorem C123_self_adjoint_euclidean (R : rcfType) (p k : nat) SYL (x : 'M[R]_(p + k, p)) (Hx : full_rank x)
  (G : 'M[R]_(p + k)) (Hop : 'M[R]_(p + k) -> 'M[R]_(p + k)) (eta xi : 'M[R]_(p + k, p)) :
  symmetric G -> (forall B, symmetric B -> symmetric (Hop B)) ->
  (forall A B, symmetric A -> symmetric B -> inner (Hop A) B = inner A (Hop B)) ->
  horizontal SF_EUC x eta -> horizontal SF_EUC x xi ->
  let E th := 2%:R *: (Hop (lift x th) *m x + G *m th) in
  g_of SF_EUC x (hessian SYL SF_EUC x (2%:R *: (G *m x)) eta (E eta)) xi =
  g_of SF_EUC x eta (hessian SYL SF_EUC x (2%:R *: (G *m x)) xi (E xi)).
Proof. exact (@hess_sym_euc R p k SYL x Hx G Hop eta xi). Qed.
Print Assumptions C123_self_adjoint_euclidean.
Theorem C123_self_adjoint (R : rcfType) (p k : nat) SYL (HS : solves_sylvester SYL) s (x egf eta xi e f : 'M[R]_(p + k, p)) :
  full_rank x -> s <> SF_EUC -> horizontal s x eta -> horizontal s x xi -> inner e xi = inner f eta ->
  g_of s x (hessian SYL s x egf eta e) xi = g_of s x eta (hessian SYL s x egf xi f).
Proof. exact (@fact_hess_sym R p k SYL HS s x egf eta xi e f). Qed.
Print Assumptions C123_self_adjoint.
Example C123_example (R : rcfType) : full_rank (wx R) /\ horizontal SF_HGZ (wx R) (we R) /\ symmetric (we R : 'M[R]_2).
Proof. exact (conj (wx_full (R := R)) (conj (@we_hor R) (@we_sym R))). Qed.

(** C124: coordinates.  The routine stores the field BL at the point; the full statement asks for
    ObtainExtr to answer also before ObtainIntr was called there, which is refuted below. *)
Theorem C124_coordinates_partial (R : rcfType) (p k : nat) QRB (HB : forall A, qr_at QRB A)
  s (x : 'M[R]_(p + k, p)) Q r BL eta xi :
  full_rank x -> is_hhr x Q r -> horizontal s x eta -> horizontal s x xi ->
  let: (v, BL') := obtain_intr QRB s BL Q r eta in let: (w, BL'') := obtain_intr QRB s BL' Q r xi in
  [/\ size v = intr_dim p k, vdot v w = g_of s x eta xi, obtain_extr s BL' Q r v = Some eta,
      obtain_extr s BL'' Q r v = Some eta & obtain_extr s BL'' Q r w = Some xi].
Proof. exact (@fact_coords R p k QRB HB s x Q r BL eta xi). Qed.
Print Assumptions C124_coordinates_partial.
Theorem C124_onto_partial (R : rcfType) (p k : nat) QRB (HB : forall A, qr_at QRB A)
  s (x : 'M[R]_(p + k, p)) Q r BL eta0 v : full_rank x -> is_hhr x Q r -> size v = intr_dim p k ->
  let: (_, BL') := obtain_intr QRB s BL Q r eta0 in
  exists eta, [/\ obtain_extr s BL' Q r v = Some eta, horizontal s x eta & (obtain_intr QRB s BL' Q r eta).1 = v].
Proof. exact (@fact_coords_onto R p k QRB HB s x Q r BL eta0 v). Qed.
Print Assumptions C124_onto_partial.
Theorem C124_refuted (R : rcfType) : ~ (forall (p k : nat) s (x : 'M[R]_(p + k, p)) Q r v,
  full_rank x -> is_hhr x Q r -> size v = intr_dim p k -> exists eta, obtain_extr s None Q r v = Some eta).
Proof. exact (@coords_refuted R). Qed.
Print Assumptions C124_refuted.
(** For every point there is a Householder decomposition; a QR decomposition of the basis exists. *)
Example C124_example (R : rcfType) (p k : nat) (x : 'M[R]_(p + k, p)) :
  (exists Q r, is_hhr x Q r) /\ exists QRB, forall A : 'M[R]_(p * p, size (weak_pairs p)), qr_at QRB A.
Proof. exact (conj (Decomp.hhr_exists x) (some_qr R p)). Qed.

(** C125: the retraction, for 2p <= n.  T = x x^T + lift x eta is the tangent vector's end point.  The
    result represents the positive semidefinite matrix nearest to T, it is the representative nearest
    to x, and it has full rank if x and eta together have, or if T is positive definite on the range of
    x.  The full statement asks for a point of the manifold always: refuted below. *)
Theorem C125_nearest_partial (R : rcfType) (p k : nat) QR EIG SVD (HR : @routines R p k QR EIG SVD) (Hk : (p <= k)%N)
  (x eta : 'M[R]_(p + k, p)) : full_rank x -> exists y, [/\ retraction QR EIG SVD x eta = Some y,
  forall P, psd P -> inner (gram x + lift x eta - gram y) (gram x + lift x eta - gram y) + inner (P - gram y) (P - gram y)
    <= inner (gram x + lift x eta - P) (gram x + lift x eta - P),
  forall O, orthonormal O -> inner (y - x) (y - x) <= inner (y *m O - x) (y *m O - x),
  posdef (x^T *m (gram x + lift x eta) *m x) -> full_rank y & full_rank (row_mx x eta) -> full_rank y].
Proof. exact (@fact_retraction R p k QR EIG SVD HR Hk x eta). Qed.
Print Assumptions C125_nearest_partial.
Theorem C125_zero_partial (R : rcfType) (p k : nat) QR EIG SVD (HR : @routines R p k QR EIG SVD)
  (x : 'M[R]_(p + k, p)) (Hx : full_rank x) : (p <= k)%N -> retraction QR EIG SVD x 0 = Some x.
Proof. exact (@retr_zero R p k QR EIG SVD HR x Hx). Qed.
Print Assumptions C125_zero_partial.
Theorem C125_first_order_partial (R : rcfType) (p k : nat) QR EIG SVD (HR : @routines R p k QR EIG SVD)
  (x eta : 'M[R]_(p + k, p)) (y : R -> 'M[R]_(p + k, p)) : (p <= k)%N ->
  (forall t, retraction QR EIG SVD x (t *: eta) = Some (y t)) ->
  second_order (fun t => gram (y t)) (fun t => gram x + t *: lift x eta).
Proof. exact (@retr_second R p k QR EIG SVD HR x eta y). Qed.
Print Assumptions C125_first_order_partial.
Theorem C125_collapse_refuted (R : rcfType) (p k : nat) QR EIG SVD (HR : @routines R p k QR EIG SVD) (Hk : (p <= k)%N)
  s (x : 'M[R]_(p + k, p)) : (0 < p)%N -> full_rank x -> exists eta, horizontal s x eta /\
  exists y, retraction QR EIG SVD x eta = Some y /\ ~ full_rank y.
Proof. exact (@fact_collapse R p k QR EIG SVD HR Hk s x). Qed.
Print Assumptions C125_collapse_refuted.
Theorem C125_wide_refuted (R : rcfType) (p k : nat) QR EIG SVD (x eta : 'M[R]_(p + k, p)) : (k < p)%N ->
  retraction QR EIG SVD x eta = None.
Proof. exact (@retr_narrow R p k QR EIG SVD x eta). Qed.
Print Assumptions C125_wide_refuted.
Example C125_example (R : rcfType) (p k : nat) : (p <= k)%N ->
  (exists QR EIG SVD, @routines R p k QR EIG SVD) /\ full_rank (col_mx 1%:M 0 : 'M[R]_(p + k, p)).
Proof. exact (fun H => conj (some_routines R H) (@some_point R p k)). Qed.
(** Along multiples of x: c x is reached for every c >= 0. *)
Example C125_along_example (R : rcfType) (p k : nat) QR EIG SVD (HR : @routines R p k QR EIG SVD) (Hk : (p <= k)%N)
  (x : 'M[R]_(p + k, p)) (c : R) : full_rank x -> 0 <= c ->
  retraction QR EIG SVD x (half R * (c ^+ 2 - 1) *: x) = Some (c *: x).
Proof. exact (@along R p k QR EIG SVD HR Hk x c). Qed.

(** C126: vector transport by parallelization keeps inner products. *)
Theorem C126_parallelization (R : rcfType) (p k : nat) QRB (HB : forall A, qr_at QRB A)
  s (x y : 'M[R]_(p + k, p)) Qx rx Qy ry BL BL0 eta xi eta0 : full_rank x -> is_hhr x Qx rx ->
  full_rank y -> is_hhr y Qy ry -> horizontal s x eta -> horizontal s x xi ->
  let: (v, BLx) := obtain_intr QRB s BL Qx rx eta in let: (w, _) := obtain_intr QRB s BLx Qx rx xi in
  let: (_, BLy) := obtain_intr QRB s BL0 Qy ry eta0 in
  exists v' w' eta' xi',
  [/\ transport_coords QRB SF_PARALLELIZATION s BLx BLy Qx rx Qy ry v = Some v',
      transport_coords QRB SF_PARALLELIZATION s BLx BLy Qx rx Qy ry w = Some w',
      obtain_extr s BLy Qy ry v' = Some eta' /\ obtain_extr s BLy Qy ry w' = Some xi',
      horizontal s y eta' /\ horizontal s y xi' & g_of s y eta' xi' = g_of s x eta xi].
Proof. exact (@fact_parallel R p k QRB HB s x y Qx rx Qy ry BL BL0 eta xi eta0). Qed.
Print Assumptions C126_parallelization.
(** Transport by projection on coordinates: what the code computes are the numbers that ObtainIntr
    returns for the vector itself; for a vector horizontal at y they are its coordinates.  They are
    not those of the projection in general. *)
Theorem C126_projection_partial (R : rcfType) (p k : nat) QRB (HB : forall A, qr_at QRB A)
  s (x y : 'M[R]_(p + k, p)) Qx rx Qy ry BL BLy eta : full_rank x -> is_hhr x Qx rx -> horizontal s x eta ->
  let: (v, BLx) := obtain_intr QRB s BL Qx rx eta in
  transport_coords QRB SF_PROJECTION s BLx BLy Qx rx Qy ry v = Some (obtain_intr QRB s BLy Qy ry eta).1.
Proof. exact (@fact_project_same R p k QRB HB s x y Qx rx Qy ry BL BLy eta). Qed.
Print Assumptions C126_projection_partial.
Theorem C126_projection_refuted (R : rcfType) : ~ (forall QRB SYL (x y : 'M[R]_(2 + 0, 2)) Qx rx Qy ry BL BLy eta,
  full_rank x -> is_hhr x Qx rx -> full_rank y -> is_hhr y Qy ry -> horizontal SF_HGZ x eta ->
  transport_coords QRB SF_PROJECTION SF_HGZ BL BLy Qx rx Qy ry (obtain_intr QRB SF_HGZ BL Qx rx eta).1 =
  Some (obtain_intr QRB SF_HGZ BLy Qy ry (transport_extr SYL SF_HGZ y eta)).1).
Proof. exact (@transport_refuted R). Qed.
Print Assumptions C126_projection_refuted.
(** The differentiated retraction is right at the zero vector, on vectors and on coordinates ... *)
Theorem C126_diff_retraction_partial (R : rcfType) (p k : nat) QR EIG SVD (HR : @routines R p k QR EIG SVD) (Hk : (p <= k)%N)
  SYL s (x xi : 'M[R]_(p + k, p)) (Y : R -> 'M[R]_(p + k, p)) : full_rank x -> solves_sylvester SYL ->
  (forall t, retraction QR EIG SVD x (t *: xi) = Some (Y t)) ->
  second_order (fun t => gram (Y t)) (fun t => gram x + t *: lift x (diff_retraction SYL s x xi)).
Proof. exact (@fact_diff_zero R p k QR EIG SVD HR Hk SYL s x xi Y). Qed.
Print Assumptions C126_diff_retraction_partial.
Theorem C126_diff_coordinates_partial (R : rcfType) (p k : nat) QRB (HB : forall A, qr_at QRB A) SYL
  s (x y : 'M[R]_(p + k, p)) Qx rx Qy ry BL BLy eta : full_rank x -> is_hhr x Qx rx -> horizontal s x eta ->
  let: (v, BLx) := obtain_intr QRB s BL Qx rx eta in
  diff_retraction_coords QRB SYL s BLx BLy Qx rx Qy ry y v =
    Some (obtain_intr QRB s BLy Qy ry (diff_retraction SYL s y eta)).1.
Proof. exact (@fact_diff_coords R p k QRB HB SYL s x y Qx rx Qy ry BL BLy eta). Qed.
Print Assumptions C126_diff_coordinates_partial.
(** ... and wrong at others, for every x, p > 0 and each metric. *)
Theorem C126_diff_retraction_refuted (R : rcfType) (p k : nat) QR EIG SVD (HR : @routines R p k QR EIG SVD) (Hk : (p <= k)%N)
  SYL s (x : 'M[R]_(p + k, p)) : (0 < p)%N -> full_rank x -> solves_sylvester SYL ->
  exists eta xi y (Y : R -> 'M[R]_(p + k, p)),
  [/\ horizontal s x eta, horizontal s x xi, retraction QR EIG SVD x eta = Some y,
      forall t, retraction QR EIG SVD x (eta + t *: xi) = Some (Y t) &
      ~ first_order (fun t => gram (Y t)) (fun t => gram y + t *: lift y (diff_retraction SYL s y xi))].
Proof. exact (@fact_diff R p k QR EIG SVD HR Hk SYL s x). Qed.
Print Assumptions C126_diff_retraction_refuted.
Example C126_example (R : rcfType) : full_rank (wx R) /\ full_rank (wy R) /\
  is_hhr (wx R) 1%:M (1%:M : 'M[R]_2) /\ is_hhr (wy R) 1%:M (diag_mx (\row_(i < 2) i.+1%:R) : 'M[R]_2) /\
  horizontal SF_HGZ (wx R) (we R).
Proof. exact (conj (@wx_full R) (conj (@wy_full R) (conj (@wx_hhr R) (conj (@wy_hhr R) (@we_hor R))))). Qed.

(** C127: the name that CheckParams prints.  Right for EUC; those of HGZ and QEUC are exchanged. *)
Theorem C127_name_partial : printed_metric SF_EUC = metric_name SF_EUC /\ forall s, exists s', printed_metric s = metric_name s'.
Proof. exact name_partial. Qed.
Print Assumptions C127_name_partial.
Theorem C127_refuted : printed_metric SF_HGZ = metric_name SF_QEUC /\ printed_metric SF_QEUC = metric_name SF_HGZ /\
  metric_name SF_HGZ <> metric_name SF_QEUC.
Proof. exact name_refuted. Qed.
Print Assumptions C127_refuted.
(** The parameter sets offer every combination of a metric and a vector transport exactly once. *)
Theorem C127_parameter_sets_partial (m : sf_metric) (t : sf_transport) : exists! i, (1 <= i <= 6)%N /\ param_set i = (m, t).
Proof. exact (@param_sets m t). Qed.
Print Assumptions C127_parameter_sets_partial.
