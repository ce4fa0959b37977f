(** The property statements of the complex Stiefel manifold, assembled, and their witnesses. *)
From mathcomp Require Import all_ssreflect all_algebra.
From mathcomp.real_closed Require Import complex.
Require Import Ring Field.
From Verif Require Import MxTac StiefelModel StiefelSpec StiefelIntr CStieSpec CStieModel CMx CStieProofs CStieRetr CStiePolar CStieIntr.
Import Order.TTheory GRing.Theory Num.Theory.
Set Implicit Arguments.
Unset Strict Implicit.
Local Open Scope ring_scope.
Local Open Scope complex_scope.

Section facts.
Variable R : rcfType.
Local Notation C := R[i].
Local Notation re := (@complex.Re R).
Local Notation im := (@complex.Im R).
Variables p k : nat.
Local Notation ext := 'M[C]_(p + k, p).
Implicit Types x y eta xi v w : ext.
Add Field cfacts_field : (rcf_field R).

Lemma cprojection_all x eta : unitary x ->
  ctangent x (cprojection x eta) /\
  (forall v, ctangent x v -> cprojection x v = v) /\
  (forall v, ctangent x v -> cinner (eta - cprojection x eta) v = 0) /\
  cnormal x (eta - cprojection x eta) /\
  (forall v, ctangent x v ->
     cinner (eta - cprojection x eta) (eta - cprojection x eta) <= cinner (eta - v) (eta - v)) /\
  cinner (ctransport_projection x eta) (ctransport_projection x eta) <= cinner eta eta.
Proof.
move=> Hx; split; first exact: cproj_tangent.
split; first by move=> v; exact: cproj_id.
split; first by move=> v; exact: cproj_orth.
split; first exact: cproj_normal.
split; first by move=> v; exact: cproj_nearest.
exact: cproj_contract.
Qed.
Lemma cgradients_all x g v : unitary x -> ctangent x v ->
  (ctangent x (cgrad_euclidean x g) /\ cmetric_euclidean (cgrad_euclidean x g) v = cinner g v) /\
  (ctangent x (cgrad_canonical x g) /\ cmetric_canonical x (cgrad_canonical x g) v = cinner g v).
Proof. by move=> Hx Hv; split; [exact: cgrad_euc_ok|exact: cgrad_can_ok]. Qed.
Lemma chess_all x eta xi (G dG dG' : ext) : unitary x ->
  (exists D E F, (forall t : R, cgrad_euclidean (x + rscale t eta) (G + rscale t dG) =
       cgrad_euclidean x G + rscale t D + rscale (t ^+ 2) E + rscale (t ^+ 3) F) /\
     chess_euclidean x eta dG G = cprojection x D) /\
  (ctangent x eta -> ctangent x xi -> cinner dG xi = cinner eta dG' ->
     cinner (chess_euclidean x eta dG G) xi = cinner eta (chess_euclidean x xi dG' G)).
Proof.
move=> Hx; split; last by exact: chess_euc_sym.
by have [D [E [F [H1 H2]]]] := chess_euc_derivative eta G dG Hx; exists D, E, F.
Qed.

Lemma rscale1 m n (A : 'M[C]_(m, n)) : rscale 1 A = A.
Proof. by rewrite /rscale rmorph1 scale1r. Qed.
Lemma rscale0 m n (A : 'M[C]_(m, n)) : rscale 0 A = 0.
Proof. by rewrite /rscale rmorph0 scale0r. Qed.
Lemma cqf_all (QR : ext -> ext * 'M[C]_p) x eta : unitary x -> ctangent x eta ->
  (forall t : R, cqr_at QR (x + rscale t eta)) ->
  (exists r, is_cqr (x + eta) (cqf_retraction QR x eta) r /\ forall i, 0 < re (r i i)) /\
  (forall Q r, is_cqr (x + eta) Q r -> (forall i, 0 < re (r i i)) -> Q = cqf_retraction QR x eta) /\
  unitary (cqf_retraction QR x eta) /\
  cqf_retraction QR x 0 = x /\
  csecond_order (fun t => cqf_retraction QR x (rscale t eta)) (fun t => x + rscale t eta).
Proof.
move=> Hx Ht H; have H1 := H 1; rewrite rscale1 in H1; have H0 := H 0; rewrite rscale0 addr0 in H0.
have Hok := cqf_ok H1 Hx Ht; split=> //; split.
  move=> Q r HQ Hr; have [r' [HQ' Hr']] := Hok.
  exact: (cqr_unique HQ HQ' Hr Hr' (cqr_unit Hx Ht HQ) (cqr_unit Hx Ht HQ')).
by split; [exact: cqf_unitary|split; [exact: cqf_zero|exact: cqf_rigid]].
Qed.
Lemma cpolar_all (SVD : ext -> ext * 'rV[R]_p * 'M[C]_p) x eta : unitary x -> ctangent x eta ->
  (forall t : R, csvd_at SVD (x + rscale t eta)) ->
  (exists P, cposdef P /\ x + eta = cpolar_retraction SVD x eta *m P) /\
  (forall Y P, unitary Y -> cposdef P -> x + eta = Y *m P -> Y = cpolar_retraction SVD x eta) /\
  (forall z, unitary z ->
     cinner (x + eta - cpolar_retraction SVD x eta) (x + eta - cpolar_retraction SVD x eta) <=
     cinner (x + eta - z) (x + eta - z)) /\
  unitary (cpolar_retraction SVD x eta) /\
  cpolar_retraction SVD x 0 = x /\
  csecond_order (fun t => cpolar_retraction SVD x (rscale t eta)) (fun t => x + rscale t eta).
Proof.
move=> Hx Ht H; have H1 := H 1; rewrite rscale1 in H1; have H0 := H 0; rewrite rscale0 addr0 in H0.
have [P [HP [EP _]]] := cpolar_ok H1 Hx Ht.
split; first by exists P.
split.
  move=> Y P' HY HP' E; have [] := cpolar_unique E EP HY (cpolar_unitary H1) HP' (cposdef_psd HP).
  by [].
split; first by move=> z; exact: cpolar_nearest.
by split; [exact: cpolar_unitary|split; [exact: cpolar_zero|exact: cpolar_rigid]].
Qed.
Lemma cdiff_qf_all (QR : ext -> ext * 'M[C]_p) x eta xi : cqr_at QR (x + eta) -> unitary x -> ctangent x eta ->
  exists rp,
  is_cqr (x + eta) (cqf_retraction QR x eta) rp /\ (forall i, 0 < re (rp i i)) /\
  (exists s, cupper s /\ real_diag s /\
     ctangent (cqf_retraction QR x eta) (cdiff_qf (QR (x + eta)).2 (cqf_retraction QR x eta) xi) /\
     cdiff_qf (QR (x + eta)).2 (cqf_retraction QR x eta) xi *m rp + cqf_retraction QR x eta *m s = xi) /\
  (forall d s, cupper s -> real_diag s -> ctangent (cqf_retraction QR x eta) d ->
     d *m rp + cqf_retraction QR x eta *m s = xi ->
     d = cdiff_qf (QR (x + eta)).2 (cqf_retraction QR x eta) xi).
Proof.
move=> H Hx Ht; have [HA HQ Hu Hd] := H; have [H1 H2] := cfixed_qr H; rewrite -cqfE in H1.
have Hr : (QR (x + eta)).2 \in unitmx by apply: (cqr_unit Hx Ht H).
have Hy : unitary (cqf_retraction QR x eta) by exact: cqf_unitary.
have Hrp := cqr_unit Hx Ht H1.
exists (cfix_rows (QR (x + eta)).2 (QR (x + eta)).2).
have [Htd [s [Hs [Hsr E]]]] := cdiff_qf_ok xi Hr Hu Hd Hy.
split=> //; split.
  have [r' [Hr' Hp']] := cqf_ok H Hx Ht.
  suff -> : cfix_rows (QR (x + eta)).2 (QR (x + eta)).2 = r' by [].
  have Ey : cqf_retraction QR x eta *m r' = cqf_retraction QR x eta *m cfix_rows (QR (x + eta)).2 (QR (x + eta)).2.
    by rewrite -(cqr_product H1) -(cqr_product Hr').
  by have := congr1 (mulmx (adj (cqf_retraction QR x eta))) Ey; rewrite !mulmxA Hy !mul1mx => ->.
split; first by exists s.
move=> d s' Hs' Hsr' Hd' E'.
by have [-> _] := cdiff_unique Hy (cqr_upper H1) (cqr_real H1) Hrp Hd' Htd Hs' Hs Hsr' Hsr E' E.
Qed.
Lemma cnorm_ratioE eta (c : R) : eta != 0 -> 0 <= c -> cnorm_ratio eta (rscale c eta) = c.
Proof.
move=> H Hc; rewrite /cnorm_ratio !cmetric_eucE cinnerZl cinnerZr.
have Hn : cinner eta eta != 0 by apply: contraNneq H => E; apply/eqP; exact: cinner_eq0.
by rewrite mulrA mulfK // -expr2 sqrtr_sqr ger0_norm.
Qed.
Lemma cdiff_polar_all (SVD : ext -> ext * 'rV[R]_p * 'M[C]_p) x eta (c : R) :
  csvd_at SVD (x + eta) -> unitary x -> ctangent x eta -> eta != 0 -> 0 <= c ->
  exists P,
  cposdef P /\ x + eta = cpolar_retraction SVD x eta *m P /\
  (exists s, hermitian s /\
     ctangent (cpolar_retraction SVD x eta)
       (cdiff_polar (SVD (x + eta)).1.2 (SVD (x + eta)).2 (cnorm_ratio eta (rscale c eta)) (cpolar_retraction SVD x eta) eta) /\
     cdiff_polar (SVD (x + eta)).1.2 (SVD (x + eta)).2 (cnorm_ratio eta (rscale c eta)) (cpolar_retraction SVD x eta) eta *m P
       + cpolar_retraction SVD x eta *m s = rscale c eta) /\
  (forall d s, hermitian s -> ctangent (cpolar_retraction SVD x eta) d ->
     d *m P + cpolar_retraction SVD x eta *m s = rscale c eta ->
     d = cdiff_polar (SVD (x + eta)).1.2 (SVD (x + eta)).2 (cnorm_ratio eta (rscale c eta)) (cpolar_retraction SVD x eta) eta).
Proof.
move=> H Hx Ht He Hc; rewrite cnorm_ratioE //.
have [Hd [P [s [HP [E [Hs E2]]]]]] := cdiff_polar_ok c H Hx Ht.
exists P; split=> //; split=> //; split; first by exists s.
move=> d s' Hs' Hd' E'.
by have [-> _] := cdiff_polar_unique (cpolar_unitary H) HP Hd' Hd Hs' Hs E' E2.
Qed.

(** Coordinates: the factorisation attached to x is that of x, or that of the matrix from which the
    qf retraction made x. *)
Definition attached (A x : ext) (Q : 'M[C]_(p + k)) (r : 'M[C]_p) :=
  is_chhr A Q r /\ ((A = x /\ unitary x) \/ x = cfix_columns r (lsubmx Q)).
Lemma attached_frame A x Q r : attached A x Q r -> cframe x Q r.
Proof. by case=> H [[E Hx]|->]; [rewrite E in H; exact: chhr_frame|exact: (chhr_frame_qf H)]. Qed.
Lemma ccoordinates_all A x Q r : is_chhr A Q r -> (A = x /\ unitary x) \/ x = cfix_columns r (lsubmx Q) ->
  (forall eta xi, ctangent x eta -> ctangent x xi ->
     vdot (cobtain_intr Q r eta) (cobtain_intr Q r xi) = cinner eta xi) /\
  (forall eta, size (cobtain_intr Q r eta) = (2 * (p + k) * p - p * p)%N) /\
  (forall u, ctangent x (cobtain_extr Q r u)) /\
  (forall eta, ctangent x eta -> cobtain_extr Q r (cobtain_intr Q r eta) = eta) /\
  (forall u, size u = (2 * (p + k) * p - p * p)%N -> cobtain_intr Q r (cobtain_extr Q r u) = u).
Proof.
move=> H D; have F : cframe x Q r by apply: (@attached_frame A).
split; first by move=> eta xi; exact: (cintr_inner F).
split; first by move=> eta; exact: cintr_size.
split; first by move=> u; exact: (cextr_tangent F).
by split; [move=> eta; exact: (cintr_extr F)|move=> u; exact: (cextr_intr F)].
Qed.
(** The transport by parallelization copies the coordinates. *)
Lemma cparallelization A x Q r A' y Q' r' :
  is_chhr A Q r -> (A = x /\ unitary x) \/ x = cfix_columns r (lsubmx Q) ->
  is_chhr A' Q' r' -> (A' = y /\ unitary y) \/ y = cfix_columns r' (lsubmx Q') ->
  (forall v, ctangent y (cobtain_extr Q' r' (cobtain_intr Q r v))) /\
  (forall v w, ctangent x v -> ctangent x w ->
     cinner (cobtain_extr Q' r' (cobtain_intr Q r v)) (cobtain_extr Q' r' (cobtain_intr Q r w)) = cinner v w) /\
  (forall v, ctangent x v -> cobtain_extr Q r (cobtain_intr Q' r' (cobtain_extr Q' r' (cobtain_intr Q r v))) = v).
Proof.
move=> H D H' D'; have F := attached_frame (conj H D); have F' := attached_frame (conj H' D').
have E v : cobtain_intr Q' r' (cobtain_extr Q' r' (cobtain_intr Q r v)) = cobtain_intr Q r v.
  by apply: (cextr_intr F'); exact: cintr_size.
split; first by move=> v; exact: (cextr_tangent F').
split; last by move=> v Hv; rewrite E; exact: (cintr_extr F).
move=> v w Hv Hw; rewrite -(cintr_inner F' (cextr_tangent F' _) (cextr_tangent F' _)) !E.
exact: (cintr_inner F).
Qed.
Lemma cnormal_all (junk : 'I_p -> R) x : unitary x ->
  (forall eta xi, cnormal x eta -> cnormal x xi -> vdot (cnormal_intr x eta) (cnormal_intr x xi) = cinner eta xi) /\
  (forall eta, size (cnormal_intr x eta) = (p * p)%N) /\
  (forall u, size u = (p * p)%N -> cnormal_intr x (cnormal_extr junk x u) = u) /\
  (forall u, cnormal x (cnormal_extr junk x u) <-> forall i, junk i = 0) /\
  (forall eta, cnormal x eta -> (forall i, junk i = 0) -> cnormal_extr junk x (cnormal_intr x eta) = eta).
Proof.
move=> H; split; first by move=> eta xi; exact: cnor_inner.
split; first by move=> eta; exact: cnor_size.
split; first by move=> u; exact: cnor_extr_intr.
split; first by move=> u; exact: cnor_extr_normal.
move=> eta He Hj; rewrite cnor_intr_extr //.
suff -> : diag_mx (\row_i (0 +i* junk i)) = 0 :> 'M[C]_p by rewrite mulmx0 addr0.
by apply/matrixP => a b; rewrite !mxE Hj; apply: ceq; case: eqP => _; rewrite ?mulr1n ?mulr0n.
Qed.

Lemma csymmetric (B : 'M[C]_(p + k)) (D : 'rV[C]_p) x y : hermitian B -> (forall i, im (D 0 i) = 0) ->
  cinner x (B *m y *m diag_mx D) = cinner (B *m x *m diag_mx D) y.
Proof.
move=> HB HD; rewrite [RHS]cinner_mulr cinner_mull HB.
have -> : adj (diag_mx D) = diag_mx D.
  apply/matrixP => i j; rewrite !mxE [j == i]eq_sym; case: eqP => [->|_].
    by rewrite !mulr1n; apply: ceq; rewrite ?reJ // imJ HD oppr0.
  by rewrite !mulr0n; apply: ceq; rewrite ?reJ ?imJ ?oppr0.
by rewrite mulmxA.
Qed.
Lemma cbrockett_all (B : 'M[C]_(p + k)) (D : 'rV[C]_p) x eta : hermitian B -> (forall i, im (D 0 i) = 0) ->
  cbrockett_f B D x = complex.Re (\tr (adj x *m B *m x *m diag_mx D)) /\
  (forall t : R, cbrockett_f B D (x + rscale t eta) =
     cbrockett_f B D x + t * cinner (cbrockett_grad B D x) eta + t ^+ 2 * cinner (B *m eta *m diag_mx D) eta) /\
  (forall t : R, cbrockett_grad B D (x + rscale t eta) = cbrockett_grad B D x + rscale t (cbrockett_hess B D eta)) /\
  (forall xi, cinner (cbrockett_hess B D eta) xi = cinner eta (cbrockett_hess B D xi)).
Proof.
move=> HB HD; rewrite /cbrockett_f /cbrockett_grad /cbrockett_hess /cbrockett_BxD /cgemm0; split; [|split; [|split]].
- by rewrite cdotE scale1r /cinner !mulmxA.
- move=> t; rewrite !cdotE !scale1r mulmxDr mulmxDl -[B *m rscale t eta]/(B *m (t%:C *: eta)) kmulZr kmulZl.
  rewrite cinnerDl !cinnerDr !cinnerZl !cinnerZr (csymmetric x eta HB HD) (csymmetric eta eta HB HD).
  by rewrite [cinner eta (B *m x *m _)]cinnerC; rng R.
- move=> t; rewrite !scale1r mulmxDr mulmxDl -[B *m rscale t eta]/(B *m (t%:C *: eta)) kmulZr kmulZl.
  rewrite /rscale scalerDr; congr (_ + _); rewrite kmulZl !scalerA; congr (_ *: _).
  by rewrite mulrC rmorph_nat.
- move=> xi; rewrite !kmulZl; have -> : 2%:R = (2%:R : R)%:C by rewrite rmorph_nat.
  by rewrite cinnerZl cinnerZr (csymmetric eta xi HB HD).
Qed.
End facts.
