(** Proofs about the hard case of the subproblem solver of LRTRSR1. *)
From mathcomp Require Import all_ssreflect all_algebra.
Require Import Ring Field.
From Verif Require Import MxTac StiefelSpec StiefelModel StiefelProofs SPDSpec LSR1SubModel LSR1SubSpec LSR1SubLin LSR1Secular LSR1SubProofs.
Import Order.TTheory GRing.Theory Num.Theory.
Set Implicit Arguments.
Unset Strict Implicit.
Local Open Scope ring_scope.

Section hard.
Variables (R : rcfType) (k q : nat).
Notation n := (k + q)%N.
Variable QR : 'M[R]_(n, k) -> 'M[R]_(n, k) * 'M[R]_k.
Variable EIG : 'M[R]_k -> 'M[R]_k * 'rV[R]_k.
Variable QRk : 'M[R]_k -> 'M[R]_k * 'M[R]_k.
Variables (tolN tolE meps : R) (late : bool).
Variables (Psi : 'M[R]_(n, k)) (M : 'M[R]_k) (g : 'cV[R]_n) (gamma Delta : R).
Hypothesis qr : qr_at QR Psi.
Hypothesis eig : eig_at EIG (Wm QR Psi M).
Hypothesis tE : 0 < tolE.
Hypothesis tEN : tolE <= tolN.
Hypothesis D0 : 0 < Delta.
Notation P := (Par QR EIG Psi M).
Notation d := (EIG (Wm QR Psi M)).2.
Notation a := (aj QR EIG tolN Psi M g).
Notation Lam := (Lambda QR EIG tolN Psi M gamma).
Notation lmin := (lambda_min QR EIG tolN Psi M gamma).
Notation B := (compact gamma Psi M).
Notation e := (arr (fun j => d 0 j + gamma) gamma).
Notation rho := (ipr (resid P g) (resid P g)).
Notation sub := (subproblem QR EIG QRk tolN tolE meps late Psi M g gamma Delta).
Notation ps := (pstar QR EIG tolN Psi M g gamma (- lmin)).
Add Field hardfield : (rcf_field R).
Let Po := Par_ortho qr eig.
Hypothesis resolved : forall i, a i = 0 \/ tolE < `|a i|.
Hypothesis exact : forall i, Lam i = e i.
Hypothesis kept : rho = 0 \/ tolN <= rho.
Hypothesis apart : forall i, `|Lam i - lmin| <= tolN -> Lam i = lmin.
Let t i := Lam i + - lmin.

Lemma akp2_rho : a ord_max ^+ 2 = rho.
Proof.
case: (akp2_sq tolN g qr eig) => [[//]|[h1 h2]]; case: kept => [h|]; last by rewrite leNgt h2.
by rewrite h1 h expr2 mul0r.
Qed.
Lemma t_cases i : t i = 0 \/ tolN < t i.
Proof.
case: (leP (t i) tolN) => h; [left | by right].
rewrite /t apart ?subrr //; rewrite ger0_norm // subr_ge0; exact: lmin_le.
Qed.
Lemma t_small i : (`|t i| < tolE) = (t i == 0).
Proof.
case: (t_cases i) => [->|h]; first by rewrite normr0 tE eqxx.
have t0 : 0 < t i by apply: lt_trans h; exact: lt_le_trans tEN.
rewrite gtr0_norm // (gt_eqF t0); apply/negbTE; rewrite -leNgt; apply: le_trans tEN _; exact: ltW.
Qed.
Lemma phi_pos : phi_positive QR EIG tolN tolE Psi M g gamma Delta (- lmin) ->
  (forall i, t i = 0 -> a i = 0) /\ plen Lam a (- lmin) <= Delta.
Proof.
have fin : (if plen Lam a (- lmin) == 0 then None else Some (secular Lam a Delta (- lmin), slope Lam a (- lmin))) = None \/
  (exists v, (if plen Lam a (- lmin) == 0 then None else Some (secular Lam a Delta (- lmin), slope Lam a (- lmin))) = Some v /\ v.1 = secular Lam a Delta (- lmin)).
  by case: ifP; [left | right; exists (secular Lam a Delta (- lmin), slope Lam a (- lmin))].
have bound : (if (if plen Lam a (- lmin) == 0 then None else Some (secular Lam a Delta (- lmin), slope Lam a (- lmin))) is Some v then v.1 > 0 else true) ->
  plen Lam a (- lmin) <= Delta.
  case: eqP => [-> _|/eqP p0]; first exact: ltW.
  rewrite /= /secular subr_gt0 => h; rewrite ltW //; rewrite ltf_pinv ?posrE // in h.
  by rewrite lt_neqAle eq_sym p0 plen_ge0.
rewrite /phi_positive /phi; case: existsP => [_|nf].
  case: existsP => [_|nin]; first by rewrite /= mulN1r oppr_gt0 invr_lt0 ltNge ltW.
  have az i : t i = 0 -> a i = 0.
    move=> ti; case: (resolved i) => // h; case: nin; exists i; by rewrite h (t_small i) ti eqxx.
  rewrite sumsE; first by move=> /bound.
  move=> i; rewrite negb_and => /orP[h|h]; first by case: (resolved i) => // h'; rewrite h' in h.
  apply: az; case: (t_cases i) => // h'; move: h; rewrite -/(t i) gtr0_norm; last by apply: lt_trans h'; exact: lt_le_trans tEN.
  by rewrite (le_lt_trans tEN h').
rewrite sumsE // => /bound h; split=> // i ti; case: nf; exists i.
by rewrite (t_small i) ti eqxx orbT.
Qed.

Hypothesis pp : phi_positive QR EIG tolN tolE Psi M g gamma Delta (- lmin).
Let tau := gamma - lmin.
Lemma t_lift j : t (lift ord_max j) = d 0 j + tau.
Proof. by rewrite /t exact e_lift addrA. Qed.
Lemma t_max : t ord_max = tau.
Proof. by rewrite /t exact e_max. Qed.
Lemma vhardE j : vhard QR EIG tolN Psi M g gamma (- lmin) j = (P^T *m g) j 0 / (d 0 j + tau).
Proof.
rewrite /vhard -/(t (lift ord_max j)) -(a_lift QR EIG tolN Psi M g) -t_lift.
case: (t_cases (lift ord_max j)) => [h|h].
  by rewrite h normr0 ltNge (le_trans (ltW tE) tEN) /= (proj1 (phi_pos pp) _ h) mul0r.
by rewrite gtr0_norm ?h //; apply: lt_trans h; exact: lt_le_trans tEN.
Qed.
Lemma pstarE : ps = P *m (- \col_j ((P^T *m g) j 0 / (d 0 j + tau))) - tau^-1 *: resid P g.
Proof.
have -> : \col_j ((P^T *m g) j 0 / (d 0 j + tau)) = \col_j vhard QR EIG tolN Psi M g gamma (- lmin) j.
  by apply/matrixP => i j; rewrite !mxE vhardE // mxE.
rewrite /pstar -/tau -t_max mulmxN; case: (t_cases ord_max) => h.
  rewrite h normr0 ltNge (le_trans (ltW tE) tEN) /= invr0 scale0r subr0 //.
rewrite gtr0_norm; last by apply: lt_trans h; exact: lt_le_trans tEN.
by rewrite h addrC; congr (_ + _); rewrite -scalerN /resid opprB.
Qed.
Lemma r_par : P^T *m (- (tau^-1 *: resid P g)) = 0.
Proof. by rewrite mulmxN -scalemxAr (resid_par Po) scaler0 oppr0. Qed.
Lemma ps_par : P^T *m ps = - \col_j ((P^T *m g) j 0 / (d 0 j + tau)).
Proof. by rewrite pstarE mulmxDr r_par addr0 mulmxA Po mul1mx. Qed.
Lemma ps_resid : resid P ps = - (tau^-1 *: resid P g).
Proof. by rewrite {1}/resid ps_par pstarE addrAC subrr add0r. Qed.
Lemma ps_solves : (B + (- lmin)%:M) *m ps = - g.
Proof.
rewrite (compact_shift qr eig) -/tau sh_app ps_resid ps_par.
have -> : \col_i ((d 0 i + tau) * (- \col_j ((P^T *m g) j 0 / (d 0 j + tau)) : 'cV[R]_k) i 0) = - (P^T *m g).
  apply/matrixP => i j; rewrite ord1 [LHS]mxE [RHS]mxE [X in _ * X]mxE mulrN; congr (- _); rewrite [X in _ * X]mxE.
  rewrite -t_lift -(a_lift QR EIG tolN Psi M g); case: (t_cases (lift ord_max i)) => h.
    by rewrite h mul0r (proj1 (phi_pos pp) _ h).
  rewrite mulrCA mulfV ?mulr1 // gt_eqF //; apply: lt_trans h; exact: lt_le_trans tEN.
have -> : tau *: - (tau^-1 *: resid P g) = - resid P g.
  rewrite scalerN scalerA; case: (t_cases ord_max) => h; rewrite t_max in h.
    rewrite h mul0r scale0r oppr0; have a0 : a ord_max = 0 by apply: (proj1 (phi_pos pp)); rewrite t_max.
    have r0 : rho = 0 by rewrite -akp2_rho a0 expr2 mul0r.
    by rewrite (ipr_eq0 r0) oppr0.
  rewrite mulfV ?scale1r // gt_eqF //; apply: lt_trans h; exact: lt_le_trans tEN.
by rewrite mulmxN -opprD -(par_split P g).
Qed.
Lemma ps_len : ipr ps ps = plen Lam a (- lmin) ^+ 2.
Proof.
rewrite (ipr_split Po) ps_resid ps_par plen_sq sum_last; congr (_ + _).
  rewrite ipr_sum; apply: eq_bigr => j _; rewrite [X in X ^+ 2]mxE [X in (- X) ^+ 2]mxE sqrrN.
  by rewrite -/(t (lift ord_max j)) t_lift (a_lift QR EIG tolN Psi M g).
rewrite -/(t ord_max) t_max exprMn exprVn akp2_rho !iprE innerNl innerNr opprK innerZl innerZr mulrA -invfM -expr2.
by rewrite mulrC.
Qed.
Lemma shift_nonneg : nonnegative (B + (- lmin)%:M).
Proof. by apply: (spec_nonneg qr eig) => i; rewrite -exact subr_ge0 lmin_le. Qed.
Lemma ps_in : ipr ps ps <= Delta ^+ 2.
Proof. rewrite ps_len ler_sqr ?nnegrE ?plen_ge0 //; [exact: (proj2 (phi_pos pp)) | exact: ltW]. Qed.

End hard.

Section result.
Variables (R : rcfType) (k q : nat).
Notation n := (k + q)%N.
Variable QR : 'M[R]_(n, k) -> 'M[R]_(n, k) * 'M[R]_k.
Variable EIG : 'M[R]_k -> 'M[R]_k * 'rV[R]_k.
Variable QRk : 'M[R]_k -> 'M[R]_k * 'M[R]_k.
Variables (tolN tolE meps : R) (late : bool).
Variables (Psi : 'M[R]_(n, k)) (M : 'M[R]_k) (g : 'cV[R]_n) (gamma Delta : R).
Notation sub := (subproblem QR EIG QRk tolN tolE meps late Psi M g gamma Delta).
Notation lmin := (lambda_min QR EIG tolN Psi M gamma).
Lemma hard_run eta : sub = Step eta NegativeCurvature ->
  [/\ lmin <= 0, phi_positive QR EIG tolN tolE Psi M g gamma Delta (- lmin) &
      hard QR EIG tolN late Psi M g gamma Delta = Step eta NegativeCurvature].
Proof.
rewrite /subproblem; case: ifP => [_ /smw_st //|_].
case: ifP => [/andP[l0 pp] E|_]; first by split.
by case: newton => // s /smw_st.
Qed.
Notation P := (Par QR EIG Psi M).
Notation a := (aj QR EIG tolN Psi M g).
Notation Lam := (Lambda QR EIG tolN Psi M gamma).
Notation B := (compact gamma Psi M).
Notation rho := (ipr (resid P g) (resid P g)).
Hypothesis qr : qr_at QR Psi.
Hypothesis eig : eig_at EIG (Wm QR Psi M).
Hypothesis tE : 0 < tolE.
Hypothesis tEN : tolE <= tolN.
Hypothesis D0 : 0 < Delta.
Hypothesis resolved : forall i, a i = 0 \/ tolE < `|a i|.
Hypothesis exact : forall i, Lam i = arr (fun j => (EIG (Wm QR Psi M)).2 0 j + gamma) gamma i.
Hypothesis kept : rho = 0 \/ tolN <= rho.
Lemma hard_zero eta : lmin = 0 -> sub = Step eta NegativeCurvature ->
  [/\ B *m eta = - g, nonnegative B, (forall v, quad B g eta <= quad B g v) & ipr eta eta <= Delta ^+ 2].
Proof.
move=> l0 /hard_run [_ pp]; rewrite /hard l0 ltxx; case: ifP => // _ -[Ep].
have apart i : `|Lam i - lmin| <= tolN -> Lam i = lmin.
  by rewrite l0 subr0 /Lambda /zeroed; case: ifP => // h h'; rewrite h' in h.
have E := ps_solves qr eig tE tEN D0 resolved exact kept apart pp.
have nn := shift_nonneg qr eig exact.
have le := ps_in qr eig tE tEN D0 resolved exact kept apart pp.
rewrite l0 Ep oppr0 raddf0 addr0 in E nn le.
by split=> //; exact: best_everywhere (compact_sym qr eig gamma) E nn.
Qed.
End result.

Section one.
Variables (R : rcfType) (q : nat).
Notation n := (1 + q)%N.
Variable QR : 'M[R]_(n, 1) -> 'M[R]_(n, 1) * 'M[R]_1.
Variable EIG : 'M[R]_1 -> 'M[R]_1 * 'rV[R]_1.
Variable QRk : 'M[R]_1 -> 'M[R]_1 * 'M[R]_1.
Variables (tolN tolE meps : R) (late : bool).
Variables (Psi : 'M[R]_(n, 1)) (M : 'M[R]_1) (g : 'cV[R]_n) (gamma Delta : R).
Notation sub := (subproblem QR EIG QRk tolN tolE meps late Psi M g gamma Delta).
Notation lmin := (lambda_min QR EIG tolN Psi M gamma).
Notation P := (Par QR EIG Psi M).
Notation a := (aj QR EIG tolN Psi M g).
Notation Lam := (Lambda QR EIG tolN Psi M gamma).
Notation B := (compact gamma Psi M).
Notation rho := (ipr (resid P g) (resid P g)).
Hypothesis qr : qr_at QR Psi.
Hypothesis eig : eig_at EIG (Wm QR Psi M).
Hypothesis tE : 0 < tolE.
Hypothesis tEN : tolE <= tolN.
Hypothesis D0 : 0 < Delta.
Hypothesis resolved : forall i, a i = 0 \/ tolE < `|a i|.
Hypothesis exact : forall i, Lam i = arr (fun j => (EIG (Wm QR Psi M)).2 0 j + gamma) gamma i.
Hypothesis kept : rho = 0 \/ tolN <= rho.
Hypothesis apart : forall i, `|Lam i - lmin| <= tolN -> Lam i = lmin.
Lemma hard_one eta : lmin < 0 -> Lam ord0 = lmin -> sub = Step eta NegativeCurvature ->
  [/\ (B - lmin%:M) *m eta = - g, nonnegative (B - lmin%:M), ipr eta eta = Delta ^+ 2 & best_within B g eta (Delta ^+ 2)].
Proof.
move=> l0 L0 /hard_run [_ pp]; rewrite /hard l0 L0 subrr normr0 (lt_le_trans tE tEN) /=.
case: ifP => // _; case: ifP => // a2; case=> Ee.
have Po := Par_ortho qr eig.
have E := ps_solves qr eig tE tEN D0 resolved exact kept apart pp.
have nn := shift_nonneg qr eig exact.
have le := ps_in qr eig tE tEN D0 resolved exact kept apart pp.
have pr := ps_par qr eig tE tEN D0 resolved exact apart pp.
move: Ee; set p := pstar _ _ _ _ _ _ _ _ in E le pr a2 *; rewrite vdE.
have PP : ipr P P = 1 by rewrite /ipr Po mxE.
have -> : \sum_i0 \sum_j P i0 j * P i0 j = 1.
  by rewrite -PP ipr_sum; apply: eq_bigr => i _; rewrite big_ord1 expr2.
set al := Num.sqrt _; rewrite sqrtr1 divr1 => Ee.
have {Ee} Ee : eta = P *m al%:M + p.
  rewrite -Ee; congr (_ + _); apply/matrixP => i j; rewrite !mxE !big_ord1 ord1 mulrC; congr (_ * _).
  by rewrite mxE mulr1n.
have e0 : (EIG (Wm QR Psi M)).2 0 0 + (gamma - lmin) = 0.
  have := exact (lift ord_max 0); rewrite arr_lift.
  by rewrite (_ : lift ord_max 0 = ord0 :> 'I_2) ?L0; [move=> h; rewrite addrA -h subrr | apply: val_inj].
have a0 : a (lift ord_max 0) = 0.
  apply: (proj1 (phi_pos tE tEN D0 resolved apart pp)).
  by rewrite (_ : lift ord_max 0 = ord0 :> 'I_2) ?L0 ?subrr //; apply: val_inj.
have pr0 : P^T *m p = 0.
  rewrite pr; apply/matrixP => i j; rewrite !ord1 [LHS]mxE [X in - X]mxE.
  by rewrite -(a_lift QR EIG tolN Psi M g) a0 mul0r oppr0 mxE.
have E1 : (B + (- lmin)%:M) *m eta = - g.
  rewrite Ee mulmxDr E (compact_shift qr eig) sh_app /resid.
  have PP1 : P^T *m (P *m al%:M) = al%:M by rewrite mulmxA Po mul1mx.
  rewrite PP1 subrr scaler0 addr0.
  rewrite (_ : \col_i _ = 0) ?mulmx0 ?add0r //.
  by apply/matrixP => i j; rewrite !ord1 [LHS]mxE e0 mul0r mxE.
have E2 : ipr eta eta = Delta ^+ 2.
  rewrite Ee (ipr_par Po al%:M al%:M pr0 pr0).
  have -> : ipr al%:M al%:M = al ^+ 2 :> R by rewrite /ipr tr_scalar_mx -scalar_mxM mxE eqxx mulr1n expr2.
  by rewrite /al sqr_sqrtr; [rewrite -expr2 subrK | rewrite -expr2 subr_ge0].
have E1' : (B - lmin%:M) *m eta = - g by rewrite -raddfN.
split=> //; first by rewrite -raddfN.
by rewrite -E2; apply: (best_here (compact_sym qr eig gamma) E1 nn); rewrite oppr_ge0 ltW.
Qed.
End one.
