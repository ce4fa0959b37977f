(** Lemmas about matrices of fixed rank in the form of the properties. *)
From mathcomp Require Import all_ssreflect all_algebra.
Require Import Ring Field.
From Verif Require Import MxTac StiefelModel StiefelSpec StiefelProofs StiefelRetr StiefelPolar StiefelWitness.
From Verif Require Import FixedRankModel FixedRankSpec FixedRankProofs FixedRankOps FixedRankCurve FixedRankRetr FixedRankHess FixedRankWitness.
Import Order.TTheory GRing.Theory Num.Theory.
Set Implicit Arguments.
Unset Strict Implicit.
Local Open Scope ring_scope.

Section facts.
Variables (R : rcfType) (r k l : nat).
Implicit Types (x : point R r k l) (f g : fields R r k l) (E Z G : 'M[R]_(r + k, r + l)).
Lemma fields_all x E : on_manifold x ->
  (tangent_matrix x E <-> exists f, represents x f E) /\ (forall f g, represents x f E -> represents x g E -> f = g).
Proof.
move=> Hx; split; first split.
- by move=> H; exists (tF (projection x E)); exact: rep_exists.
- by case=> f /(rep_tangent Hx).
- by move=> f g /(rep_unique Hx) -> /(rep_unique Hx) ->.
Qed.
Lemma tvecP (s t : tvec R r k l) : tE s = tE t -> tF s = tF t -> s = t.
Proof. by case: s t => [a b] [c d] /= -> ->. Qed.
Lemma projection_all x E : on_manifold x ->
  is_tangent x (projection x E) /\
  (forall xi, is_tangent x xi -> inner (E - tE (projection x E)) (tE xi) = 0) /\
  (forall xi, is_tangent x xi ->
     inner (E - tE (projection x E)) (E - tE (projection x E)) <= inner (E - tE xi) (E - tE xi)) /\
  (forall xi, is_tangent x xi -> projection x (tE xi) = xi).
Proof.
move=> Hx; split; first exact: projection_rep.
split; first by move=> xi; exact: projection_orth.
split; first by move=> xi; exact: projection_nearest.
move=> xi H; apply: tvecP; last by rewrite -(rep_unique Hx H).
by rewrite projection_onto // onto_id //; exact: rep_tangent Hx _ _ H.
Qed.
Lemma gradient_all x G (g : tvec R r k l) : on_manifold x ->
  (is_tangent x g /\ forall xi, is_tangent x xi -> metric x g xi = inner G (tE xi)) <-> g = projection x G.
Proof.
move=> Hx; split; first by case=> H K; exact: gradient_unique.
by move=> ->; split; [exact: projection_rep|move=> xi H; exact: gradient_ok].
Qed.
Lemma hess_derivative_all x (c : R -> point R r k l) (Gc : R -> 'M[R]_(r + k, r + l)) G e eta hU hD hV :
  on_manifold x -> is_tangent x eta -> (exists d : R, 0 < d /\ forall t : R, `|t| <= d -> on_manifold (c t)) ->
  velocity (fun t => pU (c t)) (pU x) hU -> velocity (fun t => pD (c t)) (pD x) hD -> velocity (fun t => pV (c t)) (pV x) hV ->
  velocity (fun t => pX (c t)) (pX x) (tE eta) -> velocity Gc G e ->
  exists h, velocity (fun t => tE (projection (c t) (Gc t))) (tE (projection x G)) h /\
    tE (hess x G eta e) = tE (projection x h).
Proof.
move=> Hx H1 H2 H3 H4 H5 H6 H7; have [h [K1 K2]] := hess_derivative Hx H1 H2 H3 H4 H5 H6 H7.
by exists h; split=> //; rewrite projection_onto.
Qed.
Section retr.
Variables (QRm : 'M[R]_(r + k, r) -> 'M[R]_(r + k, r) * 'M[R]_r) (QRn : 'M[R]_(r + l, r) -> 'M[R]_(r + l, r) * 'M[R]_r).
Variable SVD : 'M[R]_r -> 'M[R]_r * 'rV[R]_r * 'M[R]_r.
Lemma retr_all x f E : on_manifold x -> represents x f E ->
  (forall t : R, lapack_ok QRm SVD (pU x + t *: fdU f)) -> (forall t : R, lapack_ok QRn SVD (pV x + t *: fdV f)) ->
  (forall t : R, let y := retraction QRm QRn SVD x (scaleF t f) in
     orthonormal (pU y) /\ orthonormal (pV y) /\ pX y = pU y *m pD y *m (pV y)^T /\
     (pD x + t *: fdD f \in unitmx -> on_manifold y)) /\
  (exists d : R, 0 < d /\ forall t : R, `|t| <= d -> on_manifold (retraction QRm QRn SVD x (scaleF t f))) /\
  retraction QRm QRn SVD x (scaleF 0 f) = x /\
  velocity (fun t => pX (retraction QRm QRn SVD x (scaleF t f))) (pX x) E.
Proof.
move=> Hx Hf HU HV; split; first by move=> t; exact: (@retr_on _ _ _ _ QRm QRn SVD x (scaleF t f) (HU t) (HV t)).
split; first exact: (retr_near Hx Hf HU HV).
split; last exact: retr_velocity.
have -> : scaleF 0 f = zeroF R r k l by rewrite /scaleF !scale0r.
by apply: retr_zero => //; [have := HU 0|have := HV 0]; rewrite scale0r addr0.
Qed.
Lemma hhr_after x f E (QU : 'M[R]_(r + k)) (QV : 'M[R]_(r + l)) (TU TV : 'M[R]_r) :
  on_manifold x -> represents x f E -> lapack_ok QRm SVD (pU x + fdU f) -> lapack_ok QRn SVD (pV x + fdV f) ->
  QU^T *m (pU x + fdU f) = col_mx TU 0 -> QV^T *m (pV x + fdV f) = col_mx TV 0 ->
  let y := retraction QRm QRn SVD x f in
  exists TU' TV', QU^T *m pU y = col_mx TU' 0 /\ QV^T *m pV y = col_mx TV' 0.
Proof.
move=> Hx Hf HU HV EU EV y.
have [TU' KU] := hhr_cached HU (on_U Hx) (rep_U Hf) EU; have [TV' KV] := hhr_cached HV (on_V Hx) (rep_V Hf) EV.
by exists TU', TV'.
Qed.
End retr.
Lemma linear_combination_all x (st : store R r k l) a eta b xi res : on_manifold x ->
  (forall c f, c = eta \/ c = xi -> sf (st c) = Some f -> represents x f (sE (st c))) ->
  exists st' h, linear_combination x st a eta b xi res = Some st' /\
    let E := tE (projection x (a *: sE (st eta) + b *: sE (st xi))) in
    st' res = Slot E (Some h) /\ represents x h E /\ forall c, c <> res -> st' c = st c.
Proof.
move=> Hx H; have [st' [h [H1 H2]]] := linear_combination_ok Hx a b res H; exists st', h; split=> //.
by rewrite (projection_onto Hx).
Qed.
Lemma normal_coordinates x (QU : 'M[R]_(r + k)) (QV : 'M[R]_(r + l)) (TU TV : 'M[R]_r) :
  on_manifold x -> orthonormal QU -> orthonormal QV -> QU^T *m pU x = col_mx TU 0 -> QV^T *m pV x = col_mx TV 0 ->
  (forall M, normal_intr QU QV (normal_extr QU QV M) = M) /\
  (forall M N, inner (normal_extr QU QV M) (normal_extr QU QV N) = inner M N) /\
  (forall M xi, is_tangent x xi -> inner (normal_extr QU QV M) (tE xi) = 0) /\
  (forall E, (forall xi, is_tangent x xi -> inner E (tE xi) = 0) -> normal_extr QU QV (normal_intr QU QV E) = E).
Proof.
move=> Hx HU HV EU EV; split; first by move=> M; exact: normal_round.
split; first by move=> M N; exact: normal_isometry.
split; first by move=> M xi /(rep_tangent Hx) H; exact: (normal_orth Hx HU HV EU EV).
move=> E H; apply: (normal_all Hx HU HV EU EV) => Z HZ.
exact: (H (Tvec Z (tF (projection x Z))) (rep_exists Hx HZ)).
Qed.
End facts.

Section polar.
Variables (R : rcfType) (p k : nat).
Lemma diff_polar_vel (SVD : 'M[R]_(p + k, p) -> 'M[R]_(p + k, p) * 'rV[R]_p * 'M[R]_p) (x eta : 'M[R]_(p + k, p)) (c : R) :
  (forall t : R, svd_at SVD (x + t *: eta)) -> orthonormal x -> tangent x eta -> eta != 0 -> 0 <= c ->
  let y := polar_retraction SVD x eta in
  velocity (fun t => polar_retraction SVD x (eta + t *: (c *: eta))) y
    (diff_polar (SVD (x + eta)).1.2 (SVD (x + eta)).2 (norm_ratio eta (c *: eta)) y eta).
Proof.
move=> HS Hx He Hn Hc y; have H1 : svd_at SVD (x + eta) by have := HS 1; rewrite scale1r.
have -> : norm_ratio eta (c *: eta) = c.
  rewrite /norm_ratio /metric_euclidean (sqrt_ratio c) ?ger0_norm //; exact/eqP.
have -> : diff_polar (SVD (x + eta)).1.2 (SVD (x + eta)).2 c y eta = c *: diff_polar (SVD (x + eta)).1.2 (SVD (x + eta)).2 1 y eta.
  by rewrite /diff_polar /gemm !scale1r scalerDr !scalerA mulrN1.
apply: mvel_velocity; apply: mvel_ext (mvel_resc Hc (polar_velocity H1 Hx He HS)) => t.
by rewrite scalerDl scale1r scalerA [t * c]mulrC.
Qed.
End polar.

Section examples.
Variable R : rcfType.
Add Field frf_field : (rcf_field R).
Lemma fE_neq0 : fE R <> 0.
Proof.
move=> E; have := UtEV (fx_on R) (fe_rep R); rewrite E mul0mx mulmx0 => /matrixP /(_ 0 0).
by rewrite !mxE /= => /eqP; rewrite eq_sym oner_eq0.
Qed.
Lemma fx_example : on_manifold (fx R) /\ is_tangent (fx R) (ft R) /\ tangent_matrix (fx R) (fE R) /\
  metric (fx R) (ft R) (ft R) <> 0.
Proof.
split; first exact: fx_on. split; first exact: ft_tangent.
split; first exact: rep_tangent (fx_on R) _ _ (fe_rep R).
rewrite (metric_inner (fx_on R) (ft_tangent R) (ft_tangent R)) => /inner_eq0; exact: fE_neq0.
Qed.
Lemma proj_example : on_manifold (fx R) /\ is_tangent (fx R) (ft R) /\
  tE (projection (fx R) (fG R)) <> fG R /\ tE (projection (fx R) (fG R)) <> 0.
Proof.
split; first exact: fx_on. split; first exact: ft_tangent.
have E : tE (projection (fx R) (fG R)) = mx _ _ [:: [:: 1; 2%:R]; [:: 3%:R; 0]].
  rewrite (projection_onto (fx_on R)) /onto /= -!mulmxA !mulmxA.
  have -> : hx R *m (hx R)^T = mx _ _ [:: [:: 1; 0]; [:: 0; 0]] by mxcase; rng R.
  rewrite -[_ *m hx R *m _]mulmxA -[_ *m hx R *m _]mulmxA.
  have -> : hx R *m (hx R)^T = mx _ _ [:: [:: 1; 0]; [:: 0; 0]] by mxcase; rng R.
  by mxcase; rewrite ?big_ord_recr ?big_ord0 /= ?mxE /= ?big_ord_recr ?big_ord0 /= ?mxE /=; rng R.
rewrite E; split=> /matrixP K.
- by have := K (lift ord0 ord0) (lift ord0 ord0); rewrite !mxE /= => /eqP; rewrite eq_sym pnatr_eq0.
- by have := K ord0 ord0; rewrite !mxE /= => /eqP; rewrite oner_eq0.
Qed.
Lemma rank_refuted : exists (x : point R 1 1 1) f E, on_manifold x /\ represents x f E /\
  lapack_ok (@qr1 R (1 + 1)) (@svd1 R 1) (pU x + fdU f) /\ lapack_ok (@qr1 R (1 + 1)) (@svd1 R 1) (pV x + fdV f) /\
  ~ on_manifold (retraction (@qr1 R (1 + 1)) (@qr1 R (1 + 1)) (@svd1 R 1) x f).
Proof.
exists (fx R), (fd R), (assemble (fx R) (fd R)); split; first exact: fx_on.
split; first exact: fd_rep.
split; first by rewrite addr0; exact: lap0U.
split; first by rewrite addr0; exact: lap0V.
exact: fd_off.
Qed.
Lemma negative_refuted : exists (x : point R 1 1 1) eta E d,
  let retr := retraction (@qr1 R (1 + 1)) (@qr1 R (1 + 1)) (@svd1 R 1) x in
  on_manifold x /\ represents x eta E /\
  (forall t : R, lapack_ok (@qr1 R (1 + 1)) (@svd1 R 1) (pU x + t *: fdU eta)) /\
  (forall t : R, lapack_ok (@qr1 R (1 + 1)) (@svd1 R 1) (pV x + t *: fdV eta)) /\
  diff_retraction (@qr1 R (1 + 1)) (@qr1 R (1 + 1)) (@svd1 R 1) x eta (retr eta) (scaleF (-1) eta) = Some d /\
  ~ velocity (fun t => pX (retr (scaleF (1 + -1 * t) eta))) (pX (retr eta)) (tE d).
Proof.
have [d [E V]] := diff_neg_wrong R; exists (fx R), (fn R), (fN R), d.
split; first exact: fx_on.
split; first exact: fn_rep.
split; first exact: lapn.
split; first exact: lapn.
by split.
Qed.
Lemma polar_example : orthonormal (hx R) /\ tangent (hx R) (he R) /\ he R != 0 /\
  forall t : R, svd_at (@svd1 R (1 + 1)) (hx R + t *: he R).
Proof.
split; first exact: hx_orth.
split; first exact: orth0_tangent (he_h0 R).
split; first exact/eqP/he_neq0.
by move=> t; apply/svd1_at/line1; [exact: hx_orth|exact: he_h0].
Qed.
End examples.
