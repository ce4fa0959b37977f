(** Concrete subproblems: one pair along the first coordinate of the plane. *)
From mathcomp Require Import all_ssreflect all_algebra.
Require Import Ring Field.
From Verif Require Import MxTac StiefelSpec StiefelModel StiefelProofs SPDSpec LSR1SubModel LSR1SubSpec LSR1SubLin LSR1Secular LSR1SubProofs LSR1SubHard.
Import Order.TTheory GRing.Theory Num.Theory.
Set Implicit Arguments.
Unset Strict Implicit.
Local Open Scope ring_scope.

Section two.
Lemma ord_two (i : 'I_2) : i = ord0 \/ i = ord_max.
Proof. by case: i => [[|[|//]] h]; [left | right]; apply: val_inj. Qed.
Lemma ex2 (p : pred 'I_2) : [exists i, p i] = p ord0 || p ord_max.
Proof.
apply/existsP/orP => [[i h]|[h|h]]; [|by exists ord0|by exists ord_max].
by case: (ord_two i) h => -> ->; [left | right].
Qed.
Variable R : rcfType.
Lemma sum2 (p : pred 'I_2) (F : 'I_2 -> R) : \sum_(i | p i) F i = (if p ord0 then F ord0 else 0) + (if p ord_max then F ord_max else 0).
Proof.
rewrite big_mkcond big_ord_recl big_ord1 /=.
by have -> : lift ord0 ord0 = ord_max :> 'I_2 by exact: val_inj.
Qed.
Lemma min2 (F : 'I_2 -> R) : \big[Num.min/F ord0]_i F i = Num.min (F ord0) (F ord_max).
Proof.
rewrite !big_ord_recl big_ord0 minCA minxx minC.
by have -> : lift ord0 ord0 = ord_max :> 'I_2 by exact: val_inj.
Qed.
Lemma lift2 : lift ord_max 0 = ord0 :> 'I_2.
Proof. exact: val_inj. Qed.
End two.

Section family.
Variable R : rcfType.
Add Field famfield : (rcf_field R).
Definition v2 (x y : R) : 'cV[R]_(1 + 1) := \col_i (if i == ord0 then x else y).
Definition QR1 (A : 'M[R]_(1 + 1, 1)) : 'M[R]_(1 + 1, 1) * 'M[R]_1 := (v2 1 0, (A ord0 0)%:M).
Definition EIG1 (A : 'M[R]_1) : 'M[R]_1 * 'rV[R]_1 := (1%:M, \row_j A 0 0).
Definition QRk1 (A : 'M[R]_1) : 'M[R]_1 * 'M[R]_1 := (1%:M, A).
Lemma mx11 (A B : 'M[R]_1) : A 0 0 = B 0 0 -> A = B.
Proof. by move=> h; apply/matrixP => i j; rewrite !ord1. Qed.
Lemma v2P (u v : 'cV[R]_(1 + 1)) : u ord0 0 = v ord0 0 -> u ord_max 0 = v ord_max 0 -> u = v.
Proof. by move=> h0 h1; apply/matrixP => i j; rewrite ord1; case: (ord_two i) => ->. Qed.
Lemma v2_0 x y : v2 x y ord0 0 = x.
Proof. by rewrite mxE. Qed.
Lemma v2_1 x y : v2 x y ord_max 0 = y.
Proof. by rewrite mxE. Qed.
Lemma ipr2 (u v : 'cV[R]_(1 + 1)) : ipr u v = u ord0 0 * v ord0 0 + u ord_max 0 * v ord_max 0.
Proof. by rewrite -vdE /vd (sum2 predT). Qed.
Lemma v2_ortho : orthonormal (v2 1 0).
Proof. by apply: mx11; rewrite -/(ipr _ _) ipr2 v2_0 v2_1 mulr1 mulr0 addr0 mxE. Qed.
Lemma qr1_ok : qr_at QR1 (v2 1 0).
Proof.
split; [|exact: v2_ortho|by case=> [[|//] ?]; case=> [[|//] ?]].
by rewrite /QR1 /= v2_0 mulmx1.
Qed.
Lemma eig1_ok A : eig_at EIG1 A.
Proof.
split; last by rewrite /orthonormal trmx1 mul1mx.
by apply: mx11; rewrite /EIG1 /= trmx1 mulmx1 mul1mx !mxE eqxx mulr1n.
Qed.
Lemma qrk1_ok A : qr_at QRk1 A.
Proof. by split; [rewrite mul1mx | rewrite /orthonormal trmx1 mul1mx | case=> [[|//] ?]; case=> [[|//] ?]]. Qed.

Variables (m gamma g1 g2 Delta tolN tolE meps : R) (late : bool).
Hypothesis m0 : m != 0.
Hypothesis tol : tolerances tolN tolE meps.
Notation Psi := (v2 1 0).
Notation M := (@scalar_mx R 1 m).
Notation g := (v2 g1 g2).
Notation zr := (zeroed tolN).
Lemma Mu : M \in unitmx.
Proof. by rewrite unitmxE det_scalar expr1 unitfE. Qed.
Lemma invM : invmx M = (m^-1)%:M.
Proof. by rewrite invmx_scalar. Qed.
Lemma Rf1 : Rf QR1 Psi = 1%:M.
Proof. by rewrite /Rf /QR1 /= v2_0. Qed.
Lemma Wm1 : Wm QR1 Psi M = (m^-1)%:M.
Proof. by rewrite /Wm Rf1 trmx1 mulmx1 mul1mx invM. Qed.
Lemma d1 j : (EIG1 (Wm QR1 Psi M)).2 0 j = m^-1.
Proof. by rewrite Wm1 /EIG1 /= !mxE eqxx mulr1n. Qed.
Lemma Par1 : Par QR1 EIG1 Psi M = v2 1 0.
Proof. by rewrite /Par /EIG1 /= mulmx1. Qed.
Lemma gpar1 : gpar QR1 EIG1 Psi M g = g1%:M.
Proof. by apply: mx11; rewrite /gpar Par1 -/(ipr _ _) ipr2 !v2_0 !v2_1 mul1r mul0r addr0 mxE eqxx mulr1n. Qed.
Lemma a0 : aj QR1 EIG1 tolN Psi M g ord0 = g1.
Proof. by rewrite -lift2 /aj arr_lift gpar1 mxE eqxx mulr1n. Qed.
Lemma a1 : aj QR1 EIG1 tolN Psi M g ord_max = if g2 ^+ 2 < tolN then 0 else `|g2|.
Proof.
rewrite /aj arr_max /akp2 gpar1 !vdE ipr2 !v2_0 !v2_1 /ipr tr_scalar_mx -scalar_mxM mxE eqxx mulr1n addrAC subrr add0r.
by rewrite -!expr2 sqrtr_sqr real_normK ?num_real.
Qed.
Lemma L0 : Lambda QR1 EIG1 tolN Psi M gamma ord0 = zr (m^-1 + gamma).
Proof. by rewrite /Lambda -lift2 arr_lift d1. Qed.
Lemma L1 : Lambda QR1 EIG1 tolN Psi M gamma ord_max = zr gamma.
Proof. by rewrite /Lambda arr_max. Qed.
Lemma lmin1 : lambda_min QR1 EIG1 tolN Psi M gamma = Num.min (zr (m^-1 + gamma)) (zr gamma).
Proof. by rewrite /lambda_min min2 L0 L1. Qed.
Lemma zr_id x : tolN < `|x| -> zr x = x.
Proof. by rewrite /zeroed => h; case: leP => //; rewrite leNgt h. Qed.
Lemma zr_0 : zr 0 = 0.
Proof. by rewrite /zeroed; case: ifP. Qed.
Lemma compact1 v : compact gamma Psi M *m v = v2 ((m^-1 + gamma) * v ord0 0) (gamma * v ord_max 0).
Proof.
rewrite (compactE qr1_ok (eig1_ok _)) sh_app Par1.
have E : (v2 1 0)^T *m v = (v ord0 0)%:M.
  by apply: mx11; rewrite -/(ipr _ _) ipr2 v2_0 v2_1 mul1r mul0r addr0 mxE eqxx mulr1n.
have C (c : 'cV[R]_1) : v2 1 0 *m c = v2 (c 0 0) 0.
  by apply: v2P; rewrite !mxE big_ord1 !mxE /= ?mul1r ?mul0r.
rewrite /resid !E (_ : \col_i _ = ((m^-1 + gamma) * v ord0 0)%:M); last first.
  by apply: mx11; rewrite [LHS]mxE d1 !mxE eqxx !mulr1n.
rewrite !C; apply: v2P; rewrite !mxE ?eqxx /= ?mulr1n.
  by rewrite subrr mulr0 addr0.
by rewrite subr0 add0r.
Qed.
Lemma vw1 tau : vw QR1 Psi M tau = (tau + tau * tau * m)%:M.
Proof. by rewrite /vw Rf1 trmx1 mul1mx !scale_scalar_mx mulr1 -raddfD. Qed.
Lemma acc1 tau : tau + tau * tau * m != 0 -> accepted (100%:R * meps) (QRk1 (vw QR1 Psi M tau)).2.
Proof.
move=> h; rewrite vw1; split=> [i|i j]; first by rewrite ord1 mxE eqxx mulr1n.
rewrite !ord1 -[X in _ <= X]mul1r ler_pmul // ?mulr_ge0 ?ler0n //; first by case: tol.
by case: tol => _ _ _ _ h'; rewrite ltW // mulrC -ltr_pdivl_mulr ?ltr0n // mul1r.
Qed.
Lemma smw1 st tau : tau != 0 -> tau + tau * tau * m != 0 ->
  smw QR1 QRk1 meps Psi M g st tau = Step (v2 (g1 / (tau + tau * tau * m) - g1 / tau) (- (g2 / tau))) st.
Proof.
move=> t0 h; rewrite /smw (negbTE t0) (accepted_full (acc1 h)) /=; congr (Step _ st).
have -> : Psig Psi g = g1%:M.
  by apply: mx11; rewrite /Psig -/(ipr _ _) ipr2 !v2_0 !v2_1 mul1r mul0r addr0 mxE eqxx mulr1n.
rewrite vw1 invmx_scalar -scalar_mxM.
apply: v2P; rewrite !mxE big_ord1 !mxE /= ?eqxx ?mulr1n ?mul1r ?mul0r ?add0r !mulN1r ?mulNr.
  by rewrite [_^-1 * g1]mulrC [_^-1 * g1]mulrC.
by rewrite mulrC.
Qed.

Notation sub := (subproblem QR1 EIG1 QRk1 tolN tolE meps late Psi M g gamma Delta).
Notation a1v := (if g2 ^+ 2 < tolN then 0 else `|g2|).
Notation l0 := (m^-1 + gamma).
Hypothesis D0 : 0 < Delta.
Lemma sqrt_le (x : R) : 0 <= x -> (Num.sqrt x <= Delta) = (x <= Delta ^+ 2).
Proof. by move=> x0; rewrite -{2}(sqr_sqrtr x0) ler_sqr ?nnegrE ?sqrtr_ge0 // ltW. Qed.
Lemma tN0 : 0 < tolN.
Proof. by case: tol => h h' _ _ _; exact: lt_le_trans h'. Qed.
Lemma plen1 x : plen (Lambda QR1 EIG1 tolN Psi M gamma) (aj QR1 EIG1 tolN Psi M g) x =
  Num.sqrt ((g1 / (zr l0 + x)) ^+ 2 + (a1v / (zr gamma + x)) ^+ 2).
Proof. by rewrite /plen (sum2 predT) /= a0 a1 L0 L1. Qed.
Lemma sub_int : tolN < l0 -> tolN < gamma -> (g1 / l0) ^+ 2 + (a1v / gamma) ^+ 2 <= Delta ^+ 2 ->
  sub = smw QR1 QRk1 meps Psi M g Minimum gamma.
Proof.
move=> h0 h1 le; have p0 := lt_trans tN0 h0; have p1 := lt_trans tN0 h1.
have z0 : zr l0 = l0 by rewrite zr_id ?gtr0_norm.
have z1 : zr gamma = gamma by rewrite zr_id ?gtr0_norm.
have lm : lambda_min QR1 EIG1 tolN Psi M gamma = Num.min l0 gamma by rewrite lmin1 z0 z1.
have lp : 0 < Num.min l0 gamma by rewrite lt_minr p0 p1.
rewrite /subproblem lm tmpvE plen1 !addr0 z0 z1 lp /=.
by rewrite sqrt_le ?le // addr_ge0 ?sqr_ge0.
Qed.
Lemma sub_exc : tolN < l0 -> tolN < gamma -> Delta ^+ 2 < (g1 / l0) ^+ 2 + (a1v / gamma) ^+ 2 ->
  sub = (if newton QR1 EIG1 tolN tolE meps Psi M g gamma Delta 10 0 is Some s then
    smw QR1 QRk1 meps Psi M g Exceeded (gamma + s) else NotFinite) /\
  start QR1 EIG1 tolN Psi M g gamma Delta = 0 /\ lambda_min QR1 EIG1 tolN Psi M gamma = Num.min l0 gamma.
Proof.
move=> h0 h1 le; have p0 := lt_trans tN0 h0; have p1 := lt_trans tN0 h1.
have z0 : zr l0 = l0 by rewrite zr_id ?gtr0_norm.
have z1 : zr gamma = gamma by rewrite zr_id ?gtr0_norm.
have lm : lambda_min QR1 EIG1 tolN Psi M gamma = Num.min l0 gamma by rewrite lmin1 z0 z1.
have lp : 0 < Num.min l0 gamma by rewrite lt_minr p0 p1.
rewrite /subproblem /start lm tmpvE plen1 !addr0 z0 z1 lp /= [_ <= 0]leNgt lp /=.
by rewrite sqrt_le ?addr_ge0 ?sqr_ge0 // leNgt le.
Qed.
End family.
