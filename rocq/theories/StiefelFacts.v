(** The theorems of StiefelProps.v, assembled, and the concrete cases beside them. *)
From mathcomp Require Import all_ssreflect all_algebra.
Require Import Ring Field.
From Verif Require Import MxTac StiefelModel StiefelSpec StiefelProofs StiefelRetr StiefelDiff
  StiefelPolar StiefelCayley StiefelIntr StiefelRigid StiefelWitness.
Import Order.TTheory GRing.Theory Num.Theory.
Set Implicit Arguments.
Unset Strict Implicit.
Local Open Scope ring_scope.

Section facts.
Variables (R : rcfType) (p k : nat).
Local Notation ext := 'M[R]_(p + k, p).
Implicit Types (x y eta xi v w : ext).
Lemma stiefel_projection x eta : orthonormal x ->
  tangent x (extr_projection x eta) /\
  (forall v, tangent x v -> extr_projection x v = v) /\
  (forall v, tangent x v -> inner (eta - extr_projection x eta) v = 0) /\
  (forall v, tangent x v ->
     inner (eta - extr_projection x eta) (eta - extr_projection x eta) <= inner (eta - v) (eta - v)) /\
  extr_projection x (extr_projection x eta) = extr_projection x eta.
Proof.
move=> H; split; [exact: proj_tangent|split; [by move=> v; exact: proj_id|split]].
  by move=> v; exact: proj_orth.
by split; [move=> v; exact: proj_nearest|exact: proj_idem].
Qed.
Lemma gr_nearest x eta v : orthonormal x -> horizontal x v ->
  inner (eta - gr_projection x eta) (eta - gr_projection x eta) <= inner (eta - v) (eta - v).
Proof.
move=> Hx Hv; set P := gr_projection x eta.
have HP : horizontal x P by exact: gr_horizontal.
have Hd : horizontal x (P - v) by rewrite /horizontal mulmxBr HP Hv subrr.
have E : inner (eta - P) (P - v) = 0 by exact: gr_orth.
have -> : eta - v = (eta - P) + (P - v) by rewrite addrA subrK.
exact: inner_pyth.
Qed.
Lemma grassmann_projection x eta : orthonormal x ->
  horizontal x (gr_projection x eta) /\
  (forall v, horizontal x v -> gr_projection x v = v) /\
  (forall v, horizontal x v -> inner (eta - gr_projection x eta) v = 0) /\
  (forall v, horizontal x v ->
     inner (eta - gr_projection x eta) (eta - gr_projection x eta) <= inner (eta - v) (eta - v)) /\
  gr_projection x (gr_projection x eta) = gr_projection x eta.
Proof.
move=> H; split; [exact: gr_horizontal|split; [by move=> v; exact: gr_id|split]].
  by move=> v; exact: gr_orth.
by split; [move=> v; exact: gr_nearest|exact: gr_idem].
Qed.
Lemma gradients x g v : orthonormal x -> tangent x v ->
  (tangent x (grad_euclidean x g) /\ metric_euclidean (grad_euclidean x g) v = inner g v) /\
  (tangent x (grad_canonical x g) /\ metric_canonical x (grad_canonical x g) v = inner g v).
Proof. by move=> Hx Hv; split; [exact: grad_euc_ok|exact: grad_can_ok]. Qed.

(** Coordinates at a point whose Householder factorisation is attached, whether that of the point
    itself or that of the matrix the point was made from. *)
Lemma coordinates A x Q r : is_hhr A Q r -> (A = x /\ orthonormal x) \/ x = fix_columns r (lsubmx Q) ->
  (forall eta xi, tangent x eta -> tangent x xi ->
     vdot (obtain_intr Q r eta) (obtain_intr Q r xi) = inner eta xi) /\
  (forall eta, size (obtain_intr Q r eta) = ((p + k) * p - p * (p + 1) %/ 2)%N) /\
  (forall u, tangent x (obtain_extr Q r u)) /\
  (forall eta, tangent x eta -> obtain_extr Q r (obtain_intr Q r eta) = eta) /\
  (forall u, size u = ((p + k) * p - p * (p + 1) %/ 2)%N -> obtain_intr Q r (obtain_extr Q r u) = u).
Proof.
move=> H C; have F : frame x Q r.
  by case: C => [[E Hx]|->]; [rewrite E in H; exact: hhr_frame|exact: (hhr_frame_qf H)].
split; [by move=> eta xi; exact: (intr_inner F)|split; [by move=> eta; exact: intr_size|split]].
  by move=> u; exact: (extr_tangent F).
by split; [move=> eta; exact: (intr_extr F)|move=> u; exact: (extr_intr F)].
Qed.
Lemma gr_coordinates A x Q r : is_hhr A Q r -> (A = x /\ orthonormal x) \/ x = fix_columns r (lsubmx Q) ->
  (forall eta xi, horizontal x eta -> horizontal x xi -> vdot (gr_intr Q eta) (gr_intr Q xi) = inner eta xi) /\
  (forall eta, size (gr_intr Q eta) = (p * k)%N) /\
  (forall u, horizontal x (gr_extr Q u)) /\
  (forall eta, horizontal x eta -> gr_extr Q (gr_intr Q eta) = eta) /\
  (forall u, size u = (p * k)%N -> gr_intr Q (gr_extr Q u) = u).
Proof.
move=> H C; have F : frame x Q r.
  by case: C => [[E Hx]|->]; [rewrite E in H; exact: hhr_frame|exact: (hhr_frame_qf H)].
split; [by move=> eta xi He _; exact: (gr_intr_inner F xi He)|split; [by move=> eta; exact: gr_intr_size|split]].
  by move=> u; exact: (gr_extr_horizontal F).
by split; [move=> eta; exact: (gr_intr_extr F)|move=> u; exact: (gr_extr_intr F)].
Qed.
Lemma normal_coordinates x : orthonormal x ->
  (forall eta xi, normal x eta -> normal x xi -> vdot (normal_intr x eta) (normal_intr x xi) = inner eta xi) /\
  (forall eta, size (normal_intr x eta) = (p * (p + 1) %/ 2)%N) /\
  (forall u, normal x (normal_extr x u)) /\
  (forall eta, normal x eta -> normal_extr x (normal_intr x eta) = eta) /\
  (forall u, size u = (p * (p + 1) %/ 2)%N -> normal_intr x (normal_extr x u) = u).
Proof.
move=> H; split; [by move=> eta xi; exact: nor_inner|split; [by move=> eta; exact: nor_size|split]].
  by move=> u; exact: nor_extr_normal.
by split; [move=> eta; exact: nor_intr_extr|move=> u; exact: nor_extr_intr].
Qed.

Lemma hess_all x eta xi (G dG dG' : ext) : orthonormal x ->
  (exists D E F, (forall t, grad_euclidean (x + t *: eta) (G + t *: dG) =
       grad_euclidean x G + t *: D + t ^+ 2 *: E + t ^+ 3 *: F) /\
     hess_euclidean x eta dG G = extr_projection x D) /\
  (tangent x eta -> tangent x xi -> inner dG xi = inner eta dG' ->
     inner (hess_euclidean x eta dG G) xi = inner eta (hess_euclidean x xi dG' G)).
Proof.
move=> Hx; split; last by exact: hess_euc_sym.
by have [D [E [F [H1 H2]]]] := hess_euc_derivative eta G dG Hx; exists D, E, F.
Qed.
Lemma gr_hess_all x eta xi (G dG dG' : ext) : orthonormal x ->
  (exists D E F, (forall t, gr_projection (x + t *: eta) (G + t *: dG) =
       gr_projection x G + t *: D + t ^+ 2 *: E + t ^+ 3 *: F) /\
     gr_hess x eta dG G = gr_projection x D) /\
  (horizontal x eta -> horizontal x xi -> symmetric (x^T *m G) -> inner dG xi = inner eta dG' ->
     inner (gr_hess x eta dG G) xi = inner eta (gr_hess x xi dG' G)).
Proof.
move=> Hx; split; last by exact: gr_hess_sym.
by have [D [E [F [H1 H2]]]] := gr_hess_derivative eta G dG Hx; exists D, E, F.
Qed.

(** Retractions. *)
Section retractions.
Variables (QR : ext -> ext * 'M[R]_p) (SVD : ext -> ext * 'rV[R]_p * 'M[R]_p).
Variables (x eta : ext).
Hypothesis Hx : orthonormal x.
Hypothesis Ht : tangent x eta.
Lemma qf_all : (forall t, qr_at QR (x + t *: eta)) ->
  (exists r, is_qr (x + eta) (qf_retraction QR x eta) r /\ forall i, 0 < r i i) /\
  orthonormal (qf_retraction QR x eta) /\
  qf_retraction QR x 0 = x /\
  second_order (fun t => qf_retraction QR x (t *: eta)) (fun t => x + t *: eta).
Proof.
move=> H; have H1 := H 1; rewrite scale1r in H1; have H0 := H 0; rewrite scale0r addr0 in H0.
by split; [exact: qf_ok|split; [exact: qf_orth|split; [exact: qf_zero|exact: qf_rigid]]].
Qed.
Lemma polar_all : (forall t, svd_at SVD (x + t *: eta)) ->
  (exists P, posdef P /\ x + eta = polar_retraction SVD x eta *m P) /\
  orthonormal (polar_retraction SVD x eta) /\
  polar_retraction SVD x 0 = x /\
  second_order (fun t => polar_retraction SVD x (t *: eta)) (fun t => x + t *: eta).
Proof.
move=> H; have H1 := H 1; rewrite scale1r in H1; have H0 := H 0; rewrite scale0r addr0 in H0.
split; first by have [P [? [? _]]] := polar_ok H1 Hx Ht; exists P.
by split; [exact: polar_orth|split; [exact: polar_zero|exact: polar_rigid]].
Qed.
Lemma cayley_all :
  LUP x eta \in unitmx /\ orthonormal (cayley_retraction x eta) /\ cayley_retraction x 0 = x /\
  second_order (fun t => cayley_retraction x (t *: eta)) (fun t => x + t *: eta).
Proof. by split; [exact: LUP_unit|split; [exact: cayley_orth|split; [exact: cayley_zero|exact: cayley_rigid]]]. Qed.
End retractions.

(** Derivatives of the retractions. *)
Lemma diff_qf_all (QR : ext -> ext * 'M[R]_p) x eta xi : qr_at QR (x + eta) -> orthonormal x -> tangent x eta ->
  exists rp,
  is_qr (x + eta) (qf_retraction QR x eta) rp /\ (forall i, 0 < rp i i) /\
  (exists s, upper s /\ tangent (qf_retraction QR x eta) (diff_qf (QR (x + eta)).2 (qf_retraction QR x eta) xi) /\
     diff_qf (QR (x + eta)).2 (qf_retraction QR x eta) xi *m rp + qf_retraction QR x eta *m s = xi) /\
  (forall d s, upper s -> tangent (qf_retraction QR x eta) d -> d *m rp + qf_retraction QR x eta *m s = xi ->
     d = diff_qf (QR (x + eta)).2 (qf_retraction QR x eta) xi).
Proof.
move=> H Hx Ht; have [HA HQ Hu] := H; have [H1 H2] := fixed_qr H; rewrite -qfE in H1.
have Hr : (QR (x + eta)).2 \in unitmx by apply: (qr_unit Hx Ht H).
have Hy : orthonormal (qf_retraction QR x eta) by exact: qf_orth.
exists (fix_rows (QR (x + eta)).2 (QR (x + eta)).2).
have [Hd [s [Hs E]]] := diff_qf_ok xi Hr Hu Hy.
split=> //; split.
  move=> i; rewrite lt_neqAle H2 eq_sym andbT.
  exact: (upper_unit_diag (qr_upper H1) (fix_unit Hr)).
split; first by exists s.
move=> d s' Hs' Hd' E'.
by have [-> _] := diff_unique Hy (qr_upper H1) (fix_unit Hr) Hd' Hd Hs' Hs E' E.
Qed.

Lemma norm_ratioE eta c : eta != 0 -> 0 <= c -> norm_ratio eta (c *: eta) = c.
Proof.
move=> H Hc; rewrite /norm_ratio !metric_eucE /inner; mxz; rewrite scalerA mxtraceZ -/(inner eta eta).
have Hn : inner eta eta != 0 by apply: contraNneq H => E; apply/eqP; exact: inner_eq0.
by rewrite mulfK // -expr2 sqrtr_sqr ger0_norm.
Qed.
Lemma diff_polar_all (SVD : ext -> ext * 'rV[R]_p * 'M[R]_p) x eta c :
  svd_at SVD (x + eta) -> orthonormal x -> tangent x eta -> eta != 0 -> 0 <= c ->
  exists P,
  posdef P /\ x + eta = polar_retraction SVD x eta *m P /\
  (exists s, symmetric s /\
     tangent (polar_retraction SVD x eta)
       (diff_polar (SVD (x + eta)).1.2 (SVD (x + eta)).2 (norm_ratio eta (c *: eta)) (polar_retraction SVD x eta) eta) /\
     diff_polar (SVD (x + eta)).1.2 (SVD (x + eta)).2 (norm_ratio eta (c *: eta)) (polar_retraction SVD x eta) eta *m P
       + polar_retraction SVD x eta *m s = c *: eta) /\
  (forall d s, symmetric s -> tangent (polar_retraction SVD x eta) d ->
     d *m P + polar_retraction SVD x eta *m s = c *: eta ->
     d = diff_polar (SVD (x + eta)).1.2 (SVD (x + eta)).2 (norm_ratio eta (c *: eta)) (polar_retraction SVD x eta) eta).
Proof.
move=> H Hx Ht He Hc; rewrite norm_ratioE //.
have [Hd [P [s [HP [E [Hs E2]]]]]] := diff_polar_ok c H Hx Ht.
exists P; split=> //; split=> //; split; first by exists s.
move=> d s' Hs' Hd' E'.
by have [-> _] := diff_polar_unique (polar_orth H) HP Hd' Hd Hs' Hs E' E2.
Qed.
Lemma diff_cayley_all x eta c : orthonormal x -> tangent x eta -> eta != 0 -> 0 <= c ->
  second_order (fun t => cayley_retraction x (eta + t *: (c *: eta)))
    (fun t => cayley_retraction x eta + t *: diff_cayley (norm_ratio eta (c *: eta)) x eta).
Proof. by move=> Hx Ht He Hc; rewrite norm_ratioE //; exact: diff_cayley_ok. Qed.

Lemma transport_all x eta : orthonormal x -> tangent x eta ->
  (forall v w, inner (cayley_transport x eta v) (cayley_transport x eta w) = inner v w) /\
  (forall v w, metric_canonical (cayley_retraction x eta) (cayley_transport x eta v) (cayley_transport x eta w) =
     metric_canonical x v w) /\
  (forall v, tangent x v -> tangent (cayley_retraction x eta) (cayley_transport x eta v)) /\
  (forall v, cayley_inverse_transport x eta (cayley_transport x eta v) = v) /\
  (forall w, cayley_transport x eta (cayley_inverse_transport x eta w) = w) /\
  (forall w, tangent (cayley_retraction x eta) w -> tangent x (cayley_inverse_transport x eta w)).
Proof.
move=> Hx Ht; have Hi v w : inner (cayley_transport x eta v) (cayley_transport x eta w) = inner v w.
  by rewrite /inner transport_inner.
have Hp v : (cayley_transport x eta v)^T *m cayley_retraction x eta = v^T *m x.
  by rewrite -[LHS]trmxK trM trmxK transport_point // trM trmxK.
split=> //; split; first by move=> v w; rewrite !metric_canE Hi !Hp.
split; first by move=> v; exact: transport_tangent.
split; first by move=> v; exact: transport_inverse.
by split; [move=> w; exact: inverse_transport|move=> w; exact: inverse_tangent].
Qed.

Lemma inv_polar_all (SVD : ext -> ext * 'rV[R]_p * 'M[R]_p) (SYL : 'M[R]_p -> 'M[R]_p -> 'M[R]_p -> 'M[R]_p) x eta :
  svd_at SVD (x + eta) -> orthonormal x -> tangent x eta ->
  sylvester_at SYL (x^T *m polar_retraction SVD x eta) (x^T *m polar_retraction SVD x eta)^T (2%:R *: 1%:M) ->
  inv_polar SYL x (polar_retraction SVD x eta) = eta.
Proof. by move=> H Hx Ht Hs; exact: inv_polar_left. Qed.
Lemma inv_polar_all2 (SVD : ext -> ext * 'rV[R]_p * 'M[R]_p) (SYL : 'M[R]_p -> 'M[R]_p -> 'M[R]_p -> 'M[R]_p) x y :
  svd_at SVD (x + inv_polar SYL x y) -> orthonormal x -> orthonormal y ->
  posdef (SYL (x^T *m y) (x^T *m y)^T (2%:R *: 1%:M)) ->
  sylvester_at SYL (x^T *m y) (x^T *m y)^T (2%:R *: 1%:M) ->
  tangent x (inv_polar SYL x y) /\ polar_retraction SVD x (inv_polar SYL x y) = y.
Proof. by move=> H Hx Hy HP Hs; exact: inv_polar_right. Qed.

Lemma gr_round A x Q r d : is_hhr A Q r -> (A = x /\ orthonormal x) \/ x = fix_columns r (lsubmx Q) ->
  gr_extr Q (gr_intr Q d) = gr_projection x d.
Proof.
move=> H C; have F : frame x Q r.
  by case: C => [[E Hx]|->]; [rewrite E in H; exact: hhr_frame|exact: (hhr_frame_qf H)].
have Hx := frame_orth F.
rewrite -[RHS](gr_intr_extr F (gr_horizontal d Hx)); congr (gr_extr Q _).
apply: eq_map => [[i j]] /=; congr (fun_of_matrix _ _ _).
have -> : gr_projection x d = d - x *m (x^T *m d) by rewrite /gr_projection /gemm /gemm0 scale1r scaleN1r scale1r addrC.
rewrite mulmxBr mulmxA (proj2 F) mul_col_mx mul0mx.
by rewrite -[in LHS](vsubmxK (Q^T *m d)) -[in RHS](vsubmxK (Q^T *m d)) opp_col_mx add_col_mx oppr0 addr0 !col_mxKd.
Qed.
Lemma gr_diff_round A Q r eta : is_hhr A Q r ->
  horizontal (fix_columns r (lsubmx Q)) (gr_extr Q (gr_intr Q (diff_qf r (fix_columns r (lsubmx Q)) eta))) /\
  gr_extr Q (gr_intr Q (diff_qf r (fix_columns r (lsubmx Q)) eta)) =
    gr_projection (fix_columns r (lsubmx Q)) (diff_qf r (fix_columns r (lsubmx Q)) eta).
Proof.
move=> H; split; last by apply: gr_round H _; right.
by have [_ [_ [G _]]] := gr_coordinates H (or_intror erefl); exact: G.
Qed.
End facts.

Section examples.
Variable R : rcfType.
Add Field examples_field : (rcf_field R).
Lemma ex_tangent : tangent (wx R) (weta R).
Proof. exact: w_tangent (weta_h R). Qed.
(** A tangent vector with a rotation part. *)
Definition wrot : 'M[R]_(2 + 1, 2) := mx _ _ [:: [:: 0; -1]; [:: 1; 0]; [:: 1; 1]].
Lemma ex_rot : tangent (wx R) wrot /\ ~ horizontal (wx R) wrot /\ wrot != 0.
Proof.
split; first by rewrite /tangent /skew; mxcase; rng R.
split.
  move=> /matrixP /(_ (lift ord0 ord0) ord0); rewrite !mxE !big_ord_recr big_ord0 /= !mxE /=.
  by rewrite !mul0r mulr1 !addr0 add0r => /eqP; rewrite oner_eq0.
by apply/eqP => /matrixP /(_ (lift ord0 ord0) ord0); rewrite !mxE /= => /eqP; rewrite oner_eq0.
Qed.
Lemma ex_qr : qr_at (fun _ => (wy R, wr R)) (wx R + weta R).
Proof. exact: w_qr. Qed.
(** A Householder factorisation that reflects the first column. *)
Definition wQ : 'M[R]_(2 + 1) := mx _ _ [:: [:: -1; 0; 0]; [:: 0; 1; 0]; [:: 0; 0; 1]].
Definition wR : 'M[R]_2 := mx _ _ [:: [:: -1; 0]; [:: 0; 1]].
Lemma ex_hhr : is_hhr (wx R) wQ wR.
Proof.
split.
- by rewrite /orthonormal; mxcase; rng R.
- rewrite -(vsubmxK (wQ^T *m wx R)); congr col_mx; apply/matrixP.
  + by case=> [[|[|//]] ?]; case=> [[|[|//]] ?]; rewrite !mxE !big_ord_recr big_ord0 /= !mxE /=; rng R.
  + by case=> [[|//] ?]; case=> [[|[|//]] ?]; rewrite !mxE !big_ord_recr big_ord0 /= !mxE /=; rng R.
- by case=> [[|[|//]] ?]; case=> [[|[|//]] ?] //; rewrite !mxE.
Qed.
(** Solving a Sylvester equation of size 1. *)
Definition syl1 (A B C : 'M[R]_1) : 'M[R]_1 := (C 0 0 / (A 0 0 + B 0 0))%:M.
Lemma syl1_at (A B C : 'M[R]_1) : A 0 0 + B 0 0 != 0 -> sylvester_at syl1 A B C.
Proof.
move=> H; rewrite /sylvester_at /syl1 mul_mx_scalar mul_scalar_mx -scalerDr; apply/matrixP=> i j.
by rewrite !mxE !ord1 mulrAC -mulrA divff // mulr1.
Qed.
Lemma ex_h : orthonormal (hx R) /\ tangent (hx R) (he R) /\ he R != 0.
Proof.
split; first exact: hx_orth; split; first exact: w_tangent (he_h R).
by apply/eqP => /matrixP /(_ (lift ord0 ord0) ord0); rewrite !mxE /= => /eqP; rewrite oner_eq0.
Qed.
Lemma tangentZt m n (x v : 'M[R]_(m, n)) t : tangent x v -> tangent x (t *: v).
Proof. by rewrite /tangent /skew; mxz => ->; rewrite scalerN. Qed.
Lemma ex_all t : qr_at (@qr1 R (1 + 1)) (hx R + t *: he R) /\ svd_at (@svd1 R (1 + 1)) (hx R + t *: he R).
Proof.
have [Hx [Ht _]] := ex_h; have H := tangent_pos Hx (tangentZt t Ht).
by split; [exact: qr1_at|exact: svd1_at].
Qed.
Lemma ex_syl :
  let y := polar_retraction (p := 1) (k := 1) (@svd1 R (1 + 1)) (hx R) (he R) in
  sylvester_at syl1 ((hx R)^T *m y) ((hx R)^T *m y)^T (2%:R *: 1%:M).
Proof.
have [Hx [Ht _]] := ex_h; have H := tangent_pos Hx Ht.
apply: syl1_at; rewrite /polar_retraction /= mulmx1 [he R + _]addrC; mxz.
rewrite hx_orth he_h he_hT !addr0 !mxE /= mulr1 -mulr2n.
by rewrite mulrn_eq0 /= invr_eq0 sqrtr_eq0 -ltNge.
Qed.
Lemma hess_refuted : exists x eta dG G : 'M[R]_(1 + 1, 1),
  orthonormal x /\ tangent x eta /\
  (forall v w, tangent x v -> metric_canonical x v w = metric_euclidean v w) /\
  hess_canonical x eta dG G <> hess_euclidean x eta dG G.
Proof.
have [Hx [Ht _]] := ex_h; exists (hx R), (he R), 0, (hx R); do 2 split=> //; split; last exact: hess_differ.
by move=> v w; exact: metrics_agree.
Qed.
Lemma gr_diff_refuted : exists (x eta y : 'M[R]_(2 + 1, 2)) (r : 'M[R]_2),
  orthonormal x /\ horizontal x eta /\ is_qr (x + eta) y r /\ (forall i, 0 < r i i) /\
  ~ horizontal y (diff_qf r y eta).
Proof.
exists (wx R), (weta R), (wy R), (wr R).
split; [exact: wx_orth|split; [exact: weta_h|split; [exact: w_qr|split; [exact: wr_pos|exact: gr_diff_not_horizontal]]]].
Qed.
End examples.
