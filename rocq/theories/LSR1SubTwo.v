(** Concrete subproblems with two pairs in the plane. *)
From mathcomp Require Import all_ssreflect all_algebra.
Require Import Ring Field.
From Verif Require Import MxTac StiefelSpec StiefelModel StiefelProofs SPDSpec SPDProofs LSR1SubModel LSR1SubSpec LSR1SubLin LSR1Secular LSR1SubProofs LSR1SubHard LSR1SubWitness LSR1SubFacts.
Import Order.TTheory GRing.Theory Num.Theory.
Set Implicit Arguments.
Unset Strict Implicit.
Local Open Scope ring_scope.

Section twopairs.
Variable R : rcfType.
Definition dg2 (x y : R) : 'M[R]_2 := diag_mx (\row_i (if i == ord0 then x else y)).
Definition c2 (x y : R) : 'cV[R]_2 := \col_i (if i == ord0 then x else y).
Definition QR2 (A : 'M[R]_2) : 'M[R]_2 * 'M[R]_2 := (1%:M, A).
Definition EIG2 (A : 'M[R]_2) : 'M[R]_2 * 'rV[R]_2 := (1%:M, \row_i A i i).
Lemma dgM a b c d : dg2 a b *m dg2 c d = dg2 (a * c) (b * d).
Proof. by rewrite /dg2 mulmx_diag; congr diag_mx; apply/matrixP => i j; rewrite !mxE; case: ifP. Qed.
Lemma dg1 : dg2 1 1 = 1%:M.
Proof. by rewrite -diag_const_mx; congr diag_mx; apply/matrixP => i j; rewrite !mxE; case: ifP. Qed.
Lemma dgT a b : (dg2 a b)^T = dg2 a b.
Proof. exact: tr_diag_mx. Qed.
Lemma dgE a b i : dg2 a b i i = if i == ord0 then a else b.
Proof. by rewrite !mxE eqxx mulr1n. Qed.
Lemma dgV a b : a != 0 -> b != 0 -> invmx (dg2 a b) = dg2 a^-1 b^-1.
Proof. by move=> a0 b0; apply: inv_uniq; rewrite dgM !mulfV ?dg1. Qed.
Lemma dgU a b : a != 0 -> b != 0 -> dg2 a b \in unitmx.
Proof. by move=> a0 b0; have [] := @mulmx1_unit _ _ (dg2 a b) (dg2 a^-1 b^-1); rewrite ?dgM ?mulfV ?dg1. Qed.
Lemma dgD a b c d : dg2 a b + dg2 c d = dg2 (a + c) (b + d).
Proof. by rewrite /dg2 -raddfD; congr diag_mx; apply/matrixP => i j; rewrite !mxE; case: ifP. Qed.
Lemma dgZ t a b : t *: dg2 a b = dg2 (t * a) (t * b).
Proof. by apply/matrixP => i j; rewrite !mxE; case: (i == j); rewrite ?mulr1n ?mulr0n ?mulr0 //; case: ifP. Qed.
Lemma dgc a b x y : dg2 a b *m c2 x y = c2 (a * x) (b * y).
Proof. by apply/matrixP => i j; rewrite mul_diag_mx !mxE; case: ifP. Qed.
Lemma qr2_ok a b : qr_at QR2 (dg2 a b).
Proof.
split; [by rewrite mul1mx | by rewrite /orthonormal trmx1 mul1mx|].
by move=> i j ij; rewrite !mxE (_ : (i == j) = false) ?mulr0n //; apply/negbTE; rewrite neq_ltn ij orbT.
Qed.
Lemma eig2_ok a b : eig_at EIG2 (dg2 a b).
Proof.
split; last by rewrite /orthonormal trmx1 mul1mx.
rewrite /EIG2 /= trmx1 mulmx1 mul1mx; congr diag_mx; by apply/matrixP => i j; rewrite !mxE eqxx mulr1n.
Qed.
Variables (s0 s1 u0 u1 gamma x y Delta tolN tolE meps : R) (late : bool).
Hypothesis n0 : u0 != 0.
Hypothesis n1 : u1 != 0.
Notation Psi := (dg2 s0 s1 : 'M[R]_(2 + 0, 2)).
Notation M := (dg2 u0 u1).
Notation g := (c2 x y : 'cV[R]_(2 + 0)).
Lemma Wm2 : @Wm R 2 0 QR2 Psi M = dg2 (s0 * (u0^-1 * s0)) (s1 * (u1^-1 * s1)).
Proof. by rewrite /Wm /Rf /QR2 /= dgT dgV // !dgM. Qed.
Lemma Par2 : @Par R 2 0 QR2 EIG2 Psi M = 1%:M.
Proof. by rewrite /Par /Qf /QR2 /EIG2 /= mulmx1. Qed.
Lemma gpar2 : @gpar R 2 0 QR2 EIG2 Psi M g = c2 x y.
Proof. by rewrite /gpar Par2 trmx1 mul1mx. Qed.
Hypothesis t0 : 0 < tolN.
Lemma a2m : @aj R 2 0 QR2 EIG2 tolN Psi M g ord_max = 0.
Proof. by rewrite /aj arr_max /akp2 gpar2 subrr sqrtr0 mulr0 t0. Qed.
Lemma a2l j : @aj R 2 0 QR2 EIG2 tolN Psi M g (lift ord_max j) = if j == ord0 then x else y.
Proof. by rewrite /aj arr_lift gpar2 mxE. Qed.
Lemma L2m : @Lambda R 2 0 QR2 EIG2 tolN Psi M gamma ord_max = zeroed tolN gamma.
Proof. by rewrite /Lambda arr_max. Qed.
Lemma L2l j : @Lambda R 2 0 QR2 EIG2 tolN Psi M gamma (lift ord_max j) =
  zeroed tolN ((if j == ord0 then s0 * (u0^-1 * s0) else s1 * (u1^-1 * s1)) + gamma).
Proof. by rewrite /Lambda arr_lift Wm2 /EIG2 /= mxE dgE. Qed.
Lemma compact2 : @compact R 2 0 gamma Psi M = dg2 (s0 * (u0^-1 * s0) + gamma) (s1 * (u1^-1 * s1) + gamma).
Proof.
rewrite /compact dgV // dgM dgT dgM -scalemx1 -dg1 dgZ dgD !mulr1 !mulrA.
by congr dg2; rewrite addrC.
Qed.
End twopairs.

Section facts.
Variable R : rcfType.
Variables (tolN tolE meps : R) (late : bool).
Hypothesis tol : tolerances tolN tolE meps.
Let tN := tN0 tol.
(** A well conditioned matrix whose second pair is short: B = 2 I. *)
Lemma deficient_runs : 0 < meps ->
  @compact R 2 0 1 (dg2 1 meps) (dg2 1 (meps * meps)) = 2%:R%:M /\
  @subproblem R 2 0 (@QR2 R) (@EIG2 R) (@QR2 R) tolN tolE meps late (dg2 1 meps) (dg2 1 (meps * meps)) (c2 2%:R 0) 1 1 =
  Step (c2 (- 2%:R) 0) Minimum.
Proof.
move=> e0; have en : meps != 0 by rewrite gt_eqF.
have e2 : meps * meps != 0 by rewrite mulf_neq0.
have t1 := tN_nat tol (n := 1) isT; have t2 := tN_nat tol (n := 2) isT.
have n2 : 2%:R != 0 :> R by exact: nat_neq0.
have q1 : 1 * (1^-1 * 1) = 1 :> R by rewrite invr1 !mulr1.
have q2 : meps * ((meps * meps)^-1 * meps) = 1 by rewrite invfM mulrA mulrA mulfV // mul1r mulVf.
have B2 : @compact R 2 0 1 (dg2 1 meps) (dg2 1 (meps * meps)) = 2%:R%:M.
  by rewrite compact2 ?oner_eq0 // q1 q2 -scalemx1 -dg1 dgZ mulr1.
split=> //.
have z2 : zeroed tolN (1 + 1) = 2%:R :> R by rewrite -[1 + 1]/(2%:R) zr_id // normr_nat.
have z1 : zeroed tolN 1 = 1 :> R by exact: (zr1 tol).
have LL j : @Lambda R 2 0 (@QR2 R) (@EIG2 R) tolN (dg2 1 meps) (dg2 1 (meps * meps)) 1 (lift ord_max j) = 2%:R.
  by rewrite L2l ?oner_eq0 // q1 q2 if_same z2.
have LM : @Lambda R 2 0 (@QR2 R) (@EIG2 R) tolN (dg2 1 meps) (dg2 1 (meps * meps)) 1 ord_max = 1 by rewrite L2m z1.
have lp : 0 < @lambda_min R 2 0 (@QR2 R) (@EIG2 R) tolN (dg2 1 meps) (dg2 1 (meps * meps)) 1.
  have [i ->] := @lmin_in R 2 0 (@QR2 R) (@EIG2 R) tolN (dg2 1 meps) (dg2 1 (meps * meps)) 1.
  by case: (unliftP ord_max i) => [j ->|->]; rewrite ?LL ?LM ?ltr0n // ltr01.
rewrite /subproblem lp tmpvE /plen sum_last (sum2 predT) /= !LL LM a2m // !a2l /= !addr0 mul0r mulfV // mul0r.
rewrite expr1n expr2 mul0r !addr0 sqrtr1 lexx /smw oner_eq0.
have Ev : @vw R 2 0 (@QR2 R) (dg2 1 meps) (dg2 1 (meps * meps)) 1 = dg2 2%:R (2%:R * (meps * meps)).
  by rewrite /vw /Rf /QR2 /= dgT !dgM !dgZ dgD !mul1r -mulr2n mulr2n [2%:R * _]mulrDl !mul1r.
have D0 : @dg R 2 0 (@QR2 R) (@QR2 R) (dg2 1 meps) (dg2 1 (meps * meps)) 1 ord0 = 2%:R.
  by rewrite /dg Ev /QR2 /= dgE normr_nat.
have D1 : @dg R 2 0 (@QR2 R) (@QR2 R) (dg2 1 meps) (dg2 1 (meps * meps)) 1 ord_max = 2%:R * (meps * meps).
  by rewrite /dg Ev /QR2 /= dgE /= gtr0_norm // !mulr_gt0 ?ltr0n.
have -> : @deficient R 2 0 (@QR2 R) (@QR2 R) meps (dg2 1 meps) (dg2 1 (meps * meps)) 1.
  set mx := @maxv R 2 0 (@QR2 R) (@QR2 R) (dg2 1 meps) (dg2 1 (meps * meps)) 1.
  have mx2 : 2%:R <= mx by rewrite -D0; exact: bmax_ge.
  have mxp : 0 < mx by apply: lt_le_trans mx2; rewrite ltr0n.
  rewrite /deficient -/mx; apply/orP; left; rewrite ltr_pdivr_mulr //.
  apply: le_lt_trans (_ : 2%:R * (meps * meps) < _); first by rewrite -D1; exact: bmin_le.
  apply: lt_le_trans (_ : 100%:R * meps * 2%:R <= _); last by rewrite ler_pmul2l // mulr_gt0 // ltr0n.
  rewrite mulrC ltr_pmul2r ?ltr0n // ltr_pmul2r //.
  case: tol => _ _ _ _ h; apply: lt_trans h _; apply: (@lt_trans _ _ 1); rewrite ?ltr1n // invf_lt1 ?ltr0n ?ltr1n //.
rewrite orbT; congr (Step _ _); rewrite divr1 scaleN1r.
by apply/matrixP => i j; rewrite !mxE; case: ifP => //; rewrite oppr0.
Qed.

(** Two pairs, the smallest eigenvalue belongs to the first. *)
Lemma bounds_runs : @subproblem R 2 0 (@QR2 R) (@EIG2 R) (@QR2 R) tolN tolE meps false
  (dg2 1 1) (dg2 (mh R) 1) (c2 0 3%:R) 1 2%:R = OutOfBounds.
Proof.
have t1 := tN_nat tol (n := 1) isT; have t2 := tN_nat tol (n := 2) isT.
have e3 := tE_nat tol (n := 3) isT; have e0 : 0 < tolE by case: tol.
have n3 : 3%:R != 0 :> R by exact: nat_neq0.
have mn := mh0 R.
have q1 : 1 * ((mh R)^-1 * 1) + 1 = -1 :> R by rewrite mulr1 mul1r mhl.
have q2 : 1 * (1^-1 * 1) + 1 = 2%:R :> R by rewrite invr1 !mulr1.
set QR := @QR2 R; set EIG := @EIG2 R.
have L0 : @Lambda R 2 0 QR EIG tolN (dg2 1 1) (dg2 (mh R) 1) 1 (lift ord_max ord0) = -1.
  by rewrite L2l ?oner_eq0 //= q1 (zrm1 tol).
have L1 : @Lambda R 2 0 QR EIG tolN (dg2 1 1) (dg2 (mh R) 1) 1 (lift ord_max ord_max) = 2%:R.
  by rewrite L2l ?oner_eq0 //= q2 zr_id // normr_nat.
have LM : @Lambda R 2 0 QR EIG tolN (dg2 1 1) (dg2 (mh R) 1) 1 ord_max = 1 by rewrite L2m (zr1 tol).
have A0 : @aj R 2 0 QR EIG tolN (dg2 1 1) (dg2 (mh R) 1) (c2 0 3%:R) (lift ord_max ord0) = 0 by rewrite a2l.
have A1 : @aj R 2 0 QR EIG tolN (dg2 1 1) (dg2 (mh R) 1) (c2 0 3%:R) (lift ord_max ord_max) = 3%:R by rewrite a2l.
have AM : @aj R 2 0 QR EIG tolN (dg2 1 1) (dg2 (mh R) 1) (c2 0 3%:R) ord_max = 0 by rewrite a2m.
have e00 : ord0 = lift ord_max ord0 :> 'I_3 by exact: val_inj.
have lm : @lambda_min R 2 0 QR EIG tolN (dg2 1 1) (dg2 (mh R) 1) 1 = -1.
  apply/eqP; rewrite eq_le; apply/andP; split; first by rewrite -L0; exact: lmin_le.
  have [i ->] := @lmin_in R 2 0 QR EIG tolN (dg2 1 1) (dg2 (mh R) 1) 1.
  case: (unliftP ord_max i) => [j ->|->]; last by rewrite LM m1le.
  case: (ord_two j) => ->; rewrite ?L0 ?L1 //.
  by apply: (@le_trans _ _ 0); rewrite ?ler0n // oppr_le0 ler01.
have res i : @aj R 2 0 QR EIG tolN (dg2 1 1) (dg2 (mh R) 1) (c2 0 3%:R) i = 0 \/ tolE < `|@aj R 2 0 QR EIG tolN (dg2 1 1) (dg2 (mh R) 1) (c2 0 3%:R) i|.
  case: (unliftP ord_max i) => [j ->|->]; last by rewrite AM; left.
  by case: (ord_two j) => ->; rewrite ?A0 ?A1 ?normr_nat; [left | right].
have s2 : 1 + 1 = 2%:R :> R by [].
have s3 : 2%:R + 1 = 3%:R :> R by rewrite -[3%:R]/((2 + 1)%:R) natrD.
have pl : plen (@Lambda R 2 0 QR EIG tolN (dg2 1 1) (dg2 (mh R) 1) 1) (@aj R 2 0 QR EIG tolN (dg2 1 1) (dg2 (mh R) 1) (c2 0 3%:R)) 1 = 1.
  rewrite /plen sum_last (sum2 predT) /= L0 L1 LM A0 A1 AM s3 !mul0r mulfV // expr1n expr2 mul0r add0r addr0 sqrtr1 //.
have pp : @phi_positive R 2 0 QR EIG tolN tolE (dg2 1 1) (dg2 (mh R) 1) (c2 0 3%:R) 1 2%:R 1.
  rewrite /phi_positive /phi; case: existsP => [_|ne]; last first.
    by case: ne; exists ord_max; rewrite AM normr0 e0.
  case: existsP => [[i /andP[h1 h2]]|_].
    exfalso; move: h1 h2; case: (unliftP ord_max i) => [j ->|->]; last by rewrite AM normr0 ltNge ltW.
    case: (ord_two j) => ->; first by rewrite A0 normr0 ltNge ltW.
    by rewrite L1 s3 normr_nat => _; rewrite ltNge ltW.
  rewrite sumsE.
    rewrite pl oner_eq0 /= /secular pl invr1 subr_gt0 invf_lt1 ?ltr1n ?ltr0n //.
  move=> i; case: (unliftP ord_max i) => [j ->|->] //.
  by case: (ord_two j) => -> //; rewrite A1 L1 s3 normr_nat e3.
rewrite /subproblem lm oppr_gt0 ltr10 andFb oppr_le0 ler01 andTb opprK pp /hard lm oppr_lt0 ltr01 /= opprK.
have -> : @pstar R 2 0 QR EIG tolN (dg2 1 1) (dg2 (mh R) 1) (c2 0 3%:R) 1 1 = c2 0 (-1).
  rewrite /pstar gpar2 Par2 mul1mx subrr scaler0 add0r if_same mul1mx.
  apply/matrixP => i j; rewrite ord1 !mxE /vhard; case: (ord_two i) => ->.
    by rewrite L0 addNr normr0 (lt_gtF tN) oppr0.
  by rewrite L1 A1 s3 normr_nat (tN_nat tol) // mulfV.
have -> : (2%:R * 2%:R - vd (c2 0 (-1)) (c2 0 (-1)) < 0 :> R) = false.
  rewrite /vd (sum2 predT) /= !mxE /= mulr0 add0r mulrNN mulr1.
  by apply/negbTE; rewrite -leNgt subr_ge0 -natrM ler1n.
by rewrite e00 L0 subrr normr0 tN.
Qed.
End facts.
