(** Properties of the manifold of matrices of fixed rank. *)
From mathcomp Require Import all_ssreflect all_algebra.
From Verif Require Import StiefelModel StiefelSpec StiefelWitness FixedRankModel FixedRankSpec.
From Verif Require Import FixedRankProofs FixedRankOps FixedRankCurve FixedRankRetr FixedRankHess FixedRankWitness FixedRankFacts.
Import GRing.Theory Num.Theory.
Set Implicit Arguments.
Unset Strict Implicit.
Local Open Scope ring_scope.

(** C102: the fields of a tangent vector are determined by its matrix, exist for every matrix of
    the tangent space, and the metric computed from the fields is the Euclidean one. *)
Theorem C102_fields (R : rcfType) (r k l : nat) (x : point R r k l) (E : 'M[R]_(r + k, r + l)) : on_manifold x ->
  (tangent_matrix x E <-> exists f, represents x f E) /\
  (forall f g, represents x f E -> represents x g E -> f = g).
Proof. exact (@fields_all R r k l x E). Qed.
Print Assumptions C102_fields.
Theorem C102_metric (R : rcfType) (r k l : nat) (x : point R r k l) (eta xi : tvec R r k l) : on_manifold x ->
  is_tangent x eta -> is_tangent x xi -> metric x eta xi = inner (tE eta) (tE xi).
Proof. exact (fun H => @metric_inner R r k l x H eta xi). Qed.
Print Assumptions C102_metric.
Theorem C102_positive (R : rcfType) (r k l : nat) (x : point R r k l) (eta : tvec R r k l) : on_manifold x ->
  is_tangent x eta -> tE eta <> 0 -> 0 < metric x eta eta.
Proof. exact (fun H => @metric_pos R r k l x H eta). Qed.
Print Assumptions C102_positive.
Theorem C102_dimension (r k l : nat) : (intr_dim r k l + k * l = extr_dim r k l)%N.
Proof. exact (dims r k l). Qed.
Print Assumptions C102_dimension.
Example C102_example (R : rcfType) : on_manifold (fx R) /\ is_tangent (fx R) (ft R) /\ tangent_matrix (fx R) (fE R) /\
  metric (fx R) (ft R) (ft R) <> 0.
Proof. exact (fx_example R). Qed.

(** C103: the projection is orthogonal onto the tangent space, and the Riemannian gradient is the
    one tangent vector that represents the Euclidean gradient. *)
Theorem C103_projection (R : rcfType) (r k l : nat) (x : point R r k l) (E : 'M[R]_(r + k, r + l)) : on_manifold x ->
  is_tangent x (projection x E) /\
  (forall xi, is_tangent x xi -> inner (E - tE (projection x E)) (tE xi) = 0) /\
  (forall xi, is_tangent x xi ->
     inner (E - tE (projection x E)) (E - tE (projection x E)) <= inner (E - tE xi) (E - tE xi)) /\
  (forall xi, is_tangent x xi -> projection x (tE xi) = xi).
Proof. exact (@projection_all R r k l x E). Qed.
Print Assumptions C103_projection.
Theorem C103_gradient (R : rcfType) (r k l : nat) (x : point R r k l) (G : 'M[R]_(r + k, r + l)) (g : tvec R r k l) : on_manifold x ->
  (is_tangent x g /\ forall xi, is_tangent x xi -> metric x g xi = inner G (tE xi)) <-> g = projection x G.
Proof. exact (@gradient_all R r k l x G g). Qed.
Print Assumptions C103_gradient.
Example C103_example (R : rcfType) : on_manifold (fx R) /\ is_tangent (fx R) (ft R) /\
  tE (projection (fx R) (fG R)) <> fG R /\ tE (projection (fx R) (fG R)) <> 0.
Proof. exact (proj_example R). Qed.

(** C104: the Riemannian Hessian is tangent, symmetric, and the projection of the derivative of the
    Riemannian gradient along every curve of the manifold in the direction. *)
Theorem C104_hessian_tangent (R : rcfType) (r k l : nat) (x : point R r k l) (G e : 'M[R]_(r + k, r + l)) (eta : tvec R r k l) :
  on_manifold x -> is_tangent x (hess x G eta e).
Proof. exact (fun H => @hess_rep R r k l x H G eta e). Qed.
Print Assumptions C104_hessian_tangent.
Theorem C104_hessian_symmetric (R : rcfType) (r k l : nat) (x : point R r k l) (G e z : 'M[R]_(r + k, r + l)) (eta xi : tvec R r k l) :
  on_manifold x -> is_tangent x eta -> is_tangent x xi -> inner e (tE xi) = inner (tE eta) z ->
  metric x (hess x G eta e) xi = metric x eta (hess x G xi z).
Proof. exact (fun H => @hess_sym R r k l x H G eta xi e z). Qed.
Print Assumptions C104_hessian_symmetric.
Theorem C104_hessian_derivative (R : rcfType) (r k l : nat) (x : point R r k l) (c : R -> point R r k l)
  (Gc : R -> 'M[R]_(r + k, r + l)) (G e : 'M[R]_(r + k, r + l)) (eta : tvec R r k l) hU hD hV :
  on_manifold x -> is_tangent x eta -> (exists d : R, 0 < d /\ forall t : R, `|t| <= d -> on_manifold (c t)) ->
  velocity (fun t => pU (c t)) (pU x) hU -> velocity (fun t => pD (c t)) (pD x) hD -> velocity (fun t => pV (c t)) (pV x) hV ->
  velocity (fun t => pX (c t)) (pX x) (tE eta) -> velocity Gc G e ->
  exists h, velocity (fun t => tE (projection (c t) (Gc t))) (tE (projection x G)) h /\
    tE (hess x G eta e) = tE (projection x h).
Proof. exact (@hess_derivative_all R r k l x c Gc G e eta hU hD hV). Qed.
Print Assumptions C104_hessian_derivative.
Example C104_example (R : rcfType) :
  let c := fun t => retraction (@qr1 R (1 + 1)) (@qr1 R (1 + 1)) (@svd1 R 1) (fx R) (scaleF t (fe R)) in
  on_manifold (fx R) /\ is_tangent (fx R) (ft R) /\
  (exists d : R, 0 < d /\ forall t : R, `|t| <= d -> on_manifold (c t)) /\
  velocity (fun t => pU (c t)) (pU (fx R)) (fdU (fe R)) /\ velocity (fun t => pD (c t)) (pD (fx R)) (fdD (fe R)) /\
  velocity (fun t => pV (c t)) (pV (fx R)) (fdV (fe R)) /\ velocity (fun t => pX (c t)) (pX (fx R)) (tE (ft R)) /\
  velocity (fun t => fG R + t *: fG R) (fG R) (fG R).
Proof. exact (conj (fx_on R) (conj (ft_tangent R) (fx_curve R))). Qed.

(** C105: the retraction.  The new matrix is a product of orthonormal, square and orthonormal
    factors; it has rank r when D + dD is invertible, which holds for small steps; at zero it is x,
    and its derivative there is the tangent vector. *)
Theorem C105_retraction_partial (R : rcfType) (r k l : nat) QRm QRn SVD (x : point R r k l) (f : fields R r k l) (E : 'M[R]_(r + k, r + l)) :
  on_manifold x -> represents x f E ->
  (forall t : R, lapack_ok QRm SVD (pU x + t *: fdU f)) -> (forall t : R, lapack_ok QRn SVD (pV x + t *: fdV f)) ->
  (forall t : R, let y := retraction QRm QRn SVD x (scaleF t f) in
     orthonormal (pU y) /\ orthonormal (pV y) /\ pX y = pU y *m pD y *m (pV y)^T /\
     (pD x + t *: fdD f \in unitmx -> on_manifold y)) /\
  (exists d : R, 0 < d /\ forall t : R, `|t| <= d -> on_manifold (retraction QRm QRn SVD x (scaleF t f))) /\
  retraction QRm QRn SVD x (scaleF 0 f) = x /\
  velocity (fun t => pX (retraction QRm QRn SVD x (scaleF t f))) (pX x) E.
Proof. exact (@retr_all R r k l QRm QRn SVD x f E). Qed.
Print Assumptions C105_retraction_partial.
(** The full claim is that the result always has rank r. *)
Theorem C105_rank_refuted (R : rcfType) : exists (x : point R 1 1 1) f E, on_manifold x /\ represents x f E /\
  lapack_ok (@qr1 R (1 + 1)) (@svd1 R 1) (pU x + fdU f) /\ lapack_ok (@qr1 R (1 + 1)) (@svd1 R 1) (pV x + fdV f) /\
  ~ on_manifold (retraction (@qr1 R (1 + 1)) (@qr1 R (1 + 1)) (@svd1 R 1) x f).
Proof. exact (rank_refuted R). Qed.
Print Assumptions C105_rank_refuted.
Example C105_example (R : rcfType) : on_manifold (fx R) /\ represents (fx R) (fe R) (fE R) /\
  (forall t : R, lapack_ok (@qr1 R (1 + 1)) (@svd1 R 1) (pU (fx R) + t *: fdU (fe R))) /\
  (forall t : R, lapack_ok (@qr1 R (1 + 1)) (@svd1 R 1) (pV (fx R) + t *: fdV (fe R))).
Proof. exact (conj (fx_on R) (conj (fe_rep R) (conj (@lapU R) (@lapV R)))). Qed.

(** C106: the differentiated retraction in the direction of the step. *)
Theorem C106_diff_retraction_partial (R : rcfType) (r k l : nat) QRm QRn SVD (x : point R r k l) (eta : fields R r k l) (c : R) (E : 'M[R]_(r + k, r + l)) :
  on_manifold x -> represents x eta E -> 0 <= c -> fdU eta <> 0 -> fdV eta <> 0 ->
  (forall t : R, lapack_ok QRm SVD (pU x + t *: fdU eta)) -> (forall t : R, lapack_ok QRn SVD (pV x + t *: fdV eta)) ->
  let y := retraction QRm QRn SVD x eta in
  exists d, diff_retraction QRm QRn SVD x eta y (scaleF c eta) = Some d /\ is_tangent y d /\
    velocity (fun t => pX (retraction QRm QRn SVD x (scaleF (1 + c * t) eta))) (pX y) (tE d).
Proof. exact (fun Hx => @diff_retr_velocity R r k l QRm QRn SVD x Hx eta c E). Qed.
Print Assumptions C106_diff_retraction_partial.
Theorem C106_zero_factor_refuted (R : rcfType) (r k l : nat) QRm QRn SVD (x y : point R r k l) (eta xi : fields R r k l) :
  fdU eta = 0 \/ fdV eta = 0 -> diff_retraction QRm QRn SVD x eta y xi = None.
Proof. exact (@diff_retr_none R r k l QRm QRn SVD x eta y xi). Qed.
Print Assumptions C106_zero_factor_refuted.
Theorem C106_negative_multiple_refuted (R : rcfType) : exists (x : point R 1 1 1) eta E d,
  let retr := retraction (@qr1 R (1 + 1)) (@qr1 R (1 + 1)) (@svd1 R 1) x in
  on_manifold x /\ represents x eta E /\
  (forall t : R, lapack_ok (@qr1 R (1 + 1)) (@svd1 R 1) (pU x + t *: fdU eta)) /\
  (forall t : R, lapack_ok (@qr1 R (1 + 1)) (@svd1 R 1) (pV x + t *: fdV eta)) /\
  diff_retraction (@qr1 R (1 + 1)) (@qr1 R (1 + 1)) (@svd1 R 1) x eta (retr eta) (scaleF (-1) eta) = Some d /\
  ~ velocity (fun t => pX (retr (scaleF (1 + -1 * t) eta))) (pX (retr eta)) (tE d).
Proof. exact (negative_refuted R). Qed.
Print Assumptions C106_negative_multiple_refuted.
Example C106_example (R : rcfType) : on_manifold (fx R) /\ represents (fx R) (fe R) (fE R) /\ fdU (fe R) <> 0 /\ fdV (fe R) <> 0 /\
  (forall t : R, lapack_ok (@qr1 R (1 + 1)) (@svd1 R 1) (pU (fx R) + t *: fdU (fe R))) /\
  (forall t : R, lapack_ok (@qr1 R (1 + 1)) (@svd1 R 1) (pV (fx R) + t *: fdV (fe R))).
Proof. exact (conj (fx_on R) (conj (fe_rep R) (conj (@he_neq0 R) (conj (@he2_neq0 R) (conj (@lapU R) (@lapV R)))))). Qed.

(** C107: linear combinations in memory.  Each writes the vector and its fields to the result
    only, whichever of the arguments the result is, with one exception. *)
Theorem C107_scalar_times (R : rcfType) (r k l : nat) (x : point R r k l) (st : store R r k l) (a : R) (eta res : nat) (f : fields R r k l) :
  on_manifold x -> sf (st eta) = Some f -> represents x f (sE (st eta)) ->
  exists st' g, scalar_times st a eta res = Some st' /\ st' res = Slot (a *: sE (st eta)) (Some g) /\
    represents x g (a *: sE (st eta)) /\ forall b, b <> res -> st' b = st b.
Proof. exact (fun _ => @scalar_times_ok R r k l x st a eta res f). Qed.
Print Assumptions C107_scalar_times.
Theorem C107_scalar_vector_add_partial (R : rcfType) (r k l : nat) (x : point R r k l) (st : store R r k l) (a : R) (eta xi res : nat) (f g : fields R r k l) :
  on_manifold x -> eta <> res ->
  sf (st eta) = Some f -> represents x f (sE (st eta)) -> sf (st xi) = Some g -> represents x g (sE (st xi)) ->
  exists st' h, scalar_vector_add st a eta xi res = Some st' /\
    st' res = Slot (a *: sE (st eta) + sE (st xi)) (Some h) /\
    represents x h (a *: sE (st eta) + sE (st xi)) /\ forall b, b <> res -> st' b = st b.
Proof. exact (fun _ => @scalar_vector_add_ok R r k l x st a eta xi res f g). Qed.
Print Assumptions C107_scalar_vector_add_partial.
(** The exception: the result is the scaled vector. *)
Theorem C107_aliased_refuted (R : rcfType) (r k l : nat) (st : store R r k l) (a : R) (eta xi : nat) :
  scalar_vector_add st a eta xi eta = None.
Proof. exact (@scalar_vector_add_bad R r k l st a eta xi). Qed.
Print Assumptions C107_aliased_refuted.
Theorem C107_linear_combination (R : rcfType) (r k l : nat) (x : point R r k l) (st : store R r k l) (a : R) (eta : nat) (b : R) (xi res : nat) :
  on_manifold x -> (forall c f, c = eta \/ c = xi -> sf (st c) = Some f -> represents x f (sE (st c))) ->
  exists st' h, linear_combination x st a eta b xi res = Some st' /\
    let E := tE (projection x (a *: sE (st eta) + b *: sE (st xi))) in
    st' res = Slot E (Some h) /\ represents x h E /\ forall c, c <> res -> st' c = st c.
Proof. exact (@linear_combination_all R r k l x st a eta b xi res). Qed.
Print Assumptions C107_linear_combination.
Example C107_example (R : rcfType) : on_manifold (fx R) /\ sf (fst R 0%N) = Some (fe R) /\ represents (fx R) (fe R) (sE (fst R 0%N)) /\
  sf (fst R 1%N) = None /\ (forall c f, c = 0%N \/ c = 1%N -> sf (fst R c) = Some f -> represents (fx R) f (sE (fst R c))).
Proof. exact (conj (fx_on R) (conj erefl (conj (fe_rep R) (conj erefl (@fst_wf R))))). Qed.

(** C108: coordinates of the normal space, from the orthogonal matrices of Householder QR. *)
Theorem C108_normal_coordinates (R : rcfType) (r k l : nat) (x : point R r k l) (QU : 'M[R]_(r + k)) (QV : 'M[R]_(r + l)) (TU TV : 'M[R]_r) :
  on_manifold x -> orthonormal QU -> orthonormal QV -> QU^T *m pU x = col_mx TU 0 -> QV^T *m pV x = col_mx TV 0 ->
  (forall M, normal_intr QU QV (normal_extr QU QV M) = M) /\
  (forall M N, inner (normal_extr QU QV M) (normal_extr QU QV N) = inner M N) /\
  (forall M xi, is_tangent x xi -> inner (normal_extr QU QV M) (tE xi) = 0) /\
  (forall E, (forall xi, is_tangent x xi -> inner E (tE xi) = 0) -> normal_extr QU QV (normal_intr QU QV E) = E).
Proof. exact (@normal_coordinates R r k l x QU QV TU TV). Qed.
Print Assumptions C108_normal_coordinates.
(** The Householder vectors that Retraction stores are those of U + dU; they serve for the new point. *)
Theorem C108_after_retraction (R : rcfType) (r k l : nat) QRm QRn SVD (x : point R r k l) (f : fields R r k l) (E : 'M[R]_(r + k, r + l))
  (QU : 'M[R]_(r + k)) (QV : 'M[R]_(r + l)) (TU TV : 'M[R]_r) :
  on_manifold x -> represents x f E -> lapack_ok QRm SVD (pU x + fdU f) -> lapack_ok QRn SVD (pV x + fdV f) ->
  QU^T *m (pU x + fdU f) = col_mx TU 0 -> QV^T *m (pV x + fdV f) = col_mx TV 0 ->
  let y := retraction QRm QRn SVD x f in
  exists TU' TV', QU^T *m pU y = col_mx TU' 0 /\ QV^T *m pV y = col_mx TV' 0.
Proof. exact (@hhr_after R r k l QRm QRn SVD x f E QU QV TU TV). Qed.
Print Assumptions C108_after_retraction.
Example C108_example (R : rcfType) : on_manifold (fx R) /\ orthonormal (1%:M : 'M[R]_(1 + 1)) /\
  (1%:M : 'M[R]_(1 + 1))^T *m pU (fx R) = col_mx 1%:M 0 /\
  normal_intr (1%:M : 'M[R]_(1 + 1)) (1%:M : 'M[R]_(1 + 1)) (fG R) = 4%:R%:M.
Proof. exact (conj (fx_on R) (conj (@q1_orth R) (conj (@q1_form R) (@fG_normal_part R)))). Qed.

(** C79 again: what DiffPolarRetraction returns is the derivative of the polar retraction. *)
Theorem C79_diff_polar_velocity (R : rcfType) (p k : nat) (SVD : 'M[R]_(p + k, p) -> 'M[R]_(p + k, p) * 'rV[R]_p * 'M[R]_p)
  (x eta : 'M[R]_(p + k, p)) (c : R) :
  (forall t : R, svd_at SVD (x + t *: eta)) -> orthonormal x -> tangent x eta -> eta != 0 -> 0 <= c ->
  let y := polar_retraction SVD x eta in
  velocity (fun t => polar_retraction SVD x (eta + t *: (c *: eta))) y
    (diff_polar (SVD (x + eta)).1.2 (SVD (x + eta)).2 (norm_ratio eta (c *: eta)) y eta).
Proof. exact (@diff_polar_vel R p k SVD x eta c). Qed.
Print Assumptions C79_diff_polar_velocity.
Example C79_diff_polar_velocity_example (R : rcfType) : orthonormal (hx R) /\ tangent (hx R) (he R) /\ he R != 0 /\ forall t : R, svd_at (@svd1 R (1 + 1)) (hx R + t *: he R).
Proof. exact (polar_example R). Qed.
