(** Concrete outcomes of the subproblem solver of LRTRSR1. *)
From mathcomp Require Import all_ssreflect all_algebra.
Require Import Ring Field.
From Verif Require Import MxTac StiefelSpec StiefelModel StiefelProofs SPDSpec LSR1SubModel LSR1SubSpec LSR1SubLin LSR1Secular LSR1SubProofs LSR1SubHard LSR1SubWitness.
Import Order.TTheory GRing.Theory Num.Theory.
Set Implicit Arguments.
Unset Strict Implicit.
Local Open Scope ring_scope.

Section facts.
Variable R : rcfType.
Add Field factfield : (rcf_field R).
Variables (tolN tolE meps : R) (late : bool).
Hypothesis tol : tolerances tolN tolE meps.
Notation Psi := (v2 1 0 : 'cV[R]_(1 + 1)).
Definition run1 (m gamma g1 g2 Delta : R) :=
  subproblem (@QR1 R) (@EIG1 R) (@QRk1 R) tolN tolE meps late Psi m%:M (v2 g1 g2) gamma Delta.
Let tN := tN0 tol.
Lemma tE0 : 0 < tolE. Proof. by case: tol. Qed.
Lemma tN_nat n : (0 < n)%N -> tolN < n%:R.
Proof.
case: tol => _ _ h _ _ n0; apply: lt_le_trans h _; apply: (@le_trans _ _ 1); last by rewrite ler1n.
by rewrite invf_le1 ?ler1n ?ltr0n.
Qed.
Lemma tE_nat n : (0 < n)%N -> tolE < n%:R.
Proof. by case: tol => _ h _ _ _ n0; apply: le_lt_trans h _; exact: tN_nat. Qed.
Lemma nat_neq0 n : (0 < n)%N -> n%:R != 0 :> R.
Proof. by move=> h; rewrite pnatr_eq0 -lt0n. Qed.
Lemma half_sum : 1^-1 + 1 = 2%:R :> R.
Proof. by rewrite invr1. Qed.

Lemma interior_runs : run1 1 1 2%:R 1 2%:R = Step (v2 (-1) (-1)) Minimum.
Proof.
have t1 := @tN_nat 1 isT; have t2 := @tN_nat 2 isT.
have n2 : 2%:R != 0 :> R by exact: nat_neq0.
have D0 : 0 < 2%:R :> R by rewrite ltr0n.
have le : (2%:R / (1^-1 + 1)) ^+ 2 + ((if 1 ^+ 2 < tolN then 0 else `|1|) / 1) ^+ 2 <= 2%:R ^+ 2 :> R.
  by rewrite half_sum !expr1n ltNge (ltW t1) /= normr1 divr1 mulfV // !expr1n expr2 -natrM -[1 + 1]/(2%:R) ler_nat.
have h0 : tolN < 1^-1 + 1 by rewrite half_sum.
rewrite /run1 (sub_int late tol D0 h0 t1 le).
rewrite (smw1 _ _ tol) ?oner_eq0 //.
  congr (Step (v2 _ _) _); last by rewrite divr1.
  by rewrite !mulr1 divr1 -[1 + 1]/(2%:R) mulfV // mulr2n; toR R; ring.
by rewrite !mulr1.
Qed.
Lemma truncated_runs : run1 1 (2%:R * tolN) 0 tolN 4%:R^-1 = Step (v2 0 (- 2%:R^-1)) Minimum.
Proof.
have t1 := @tN_nat 1 isT.
have n2 : 2%:R != 0 :> R by exact: nat_neq0.
have nN : tolN != 0 by rewrite gt_eqF.
have g0 : tolN < 2%:R * tolN by rewrite mulr2n mulrDl mul1r ltr_addl.
have D0 : 0 < 4%:R^-1 :> R by rewrite invr_gt0 ltr0n.
have h0 : tolN < 1^-1 + 2%:R * tolN by rewrite invr1 (lt_trans t1) // ltr_addl mulr_gt0 // ltr0n.
have le : (0 / (1^-1 + 2%:R * tolN)) ^+ 2 + ((if tolN ^+ 2 < tolN then 0 else `|tolN|) / (2%:R * tolN)) ^+ 2 <= 4%:R^-1 ^+ 2.
  have -> : tolN ^+ 2 < tolN by rewrite expr2 gtr_pmulr.
  by rewrite !mul0r expr2 mul0r addr0 sqr_ge0.
rewrite /run1 (sub_int late tol D0 h0 g0 le).
have t0 : 2%:R * tolN != 0 by rewrite mulf_neq0.
rewrite (smw1 _ _ tol) ?oner_eq0 //.
  congr (Step (v2 _ _) _); first by rewrite !mul0r subr0.
  by rewrite invfM mulrCA mulfV // mulr1.
by rewrite mulr1 gt_eqF // addr_gt0 ?mulr_gt0 // ltr0n.
Qed.

(** A step across the boundary that ends outside the region. *)
Lemma outside_runs : exists eta, run1 1 1 4%:R 2%:R 1 = Step eta Exceeded /\ 1 < ipr eta eta.
Proof.
have t1 := @tN_nat 1 isT; have t2 := @tN_nat 2 isT.
have n2 : 2%:R != 0 :> R by exact: nat_neq0.
have D0 : 0 < 1 :> R by rewrite ltr01.
have h0 : tolN < 1^-1 + 1 by rewrite half_sum.
have m0 : 1 != 0 :> R by rewrite oner_eq0.
have q4 : (2%:R ^+ 2 < tolN) = false by apply/negbTE; rewrite -leNgt expr2 -natrM ltW // tN_nat.
have le : 1 ^+ 2 < (4%:R / (1^-1 + 1)) ^+ 2 + ((if 2%:R ^+ 2 < tolN then 0 else `|2%:R|) / 1) ^+ 2 :> R.
  rewrite half_sum q4 normr_nat divr1 -[4%:R]/((2 * 2)%:R) natrM mulfK // expr1n expr2 -!natrM -natrD ltr1n //.
have [Es [st lm]] := sub_exc late tol D0 h0 t1 le.
set QR := @QR1 R in Es st lm *; set EIG := @EIG1 R in Es st lm *.
have qr : qr_at QR Psi := qr1_ok R.
have eig : eig_at EIG (Wm QR Psi 1%:M) := eig1_ok _.
have A0 : aj QR EIG tolN Psi 1%:M (v2 4%:R 2%:R) ord0 = 4%:R by rewrite a0.
have A1 : aj QR EIG tolN Psi 1%:M (v2 4%:R 2%:R) ord_max = 2%:R by rewrite a1 q4 normr_nat.
have B0 : Lambda QR EIG tolN Psi 1%:M 1 ord0 = 2%:R by rewrite L0 ?half_sum ?zr_id // normr_nat.
have B1 : Lambda QR EIG tolN Psi 1%:M 1 ord_max = 1 by rewrite L1 ?zr_id // normr1.
have res i : aj QR EIG tolN Psi 1%:M (v2 4%:R 2%:R) i = 0 \/ tolE < `|aj QR EIG tolN Psi 1%:M (v2 4%:R 2%:R) i|.
  by right; case: (ord_two i) => ->; rewrite ?A0 ?A1 normr_nat tE_nat.
have ex i : Lambda QR EIG tolN Psi 1%:M 1 i = arr (fun j => (EIG (Wm QR Psi 1%:M)).2 0 j + 1) 1 i.
  apply: Lam_pos; case: (ord_two i) => ->; rewrite ?B0 ?B1 ?ltr0n //; exact: ltr01.
have lm1 : lambda_min QR EIG tolN Psi 1%:M 1 = 1 by rewrite lm half_sum; case: leP => //; rewrite lern1.
have sep : tolE < lambda_min QR EIG tolN Psi 1%:M 1 + start QR EIG tolN Psi 1%:M (v2 4%:R 2%:R) 1 1.
  by rewrite lm1 st addr0; exact: (@tE_nat 1).
have tx i : tolE < Lambda QR EIG tolN Psi 1%:M 1 i + 0.
  by rewrite addr0; case: (ord_two i) => ->; rewrite ?B0 ?B1; [exact: tE_nat | exact: (@tE_nat 1)].
have pl : 1 <= plen (Lambda QR EIG tolN Psi 1%:M 1) (aj QR EIG tolN Psi 1%:M (v2 4%:R 2%:R)) 0.
  rewrite /plen (sum2 predT) /= A0 A1 B0 B1 !addr0 divr1 -[4%:R]/((2 * 2)%:R) natrM mulfK //.
  by rewrite -[X in X <= _]sqrtr1 ler_wsqrtr // expr2 -natrM -natrD ler1n.
have [s En] := newton_some meps tE0 D0 res 10 tx pl.
have s0 : 0 <= s by have [] := newton_left tE0 D0 res tx pl En.
have sp : 0 < 1 + s by rewrite ltr_spaddl ?ltr01.
have vp : 1 + s + (1 + s) * (1 + s) * 1 != 0 by rewrite mulr1 gt_eqF // addr_gt0 // mulr_gt0.
move: Es; rewrite En (smw1 _ _ tol Exceeded (lt0r_neq0 sp) vp).
set eta := v2 (_ - _) _ => Es; exists eta; split; first exact: Es.
have hk s' : newton QR EIG tolN tolE meps Psi 1%:M (v2 4%:R 2%:R) 1 1 10 (start QR EIG tolN Psi 1%:M (v2 4%:R 2%:R) 1 1) = Some s' ->
  qr_at (@QRk1 R) (vw QR Psi 1%:M (1 + s')) /\ accepted (100%:R * meps) (QRk1 (vw QR Psi 1%:M (1 + s'))).2.
  rewrite st En => -[<-]; split; [exact: qrk1_ok | exact: (acc1 tol vp)].
have [s' [_ _ _ _ [_ _ gt]]] := boundary qr eig (Mu m0) (ltW tN) tE0 D0 res ex sep hk Es.
have := gt; rewrite lm1 expr1n; apply; first exact: ltr01.
exists ord0, ord_max; rewrite A0 A1 B0 B1; split; rewrite ?nat_neq0 //.
by rewrite -[1]/(1%:R) eqr_nat.
Qed.

(** Started at the pole, Newton's method does not leave it. *)
Definition mh : R := - 2%:R^-1.
Lemma mhV : mh^-1 = - 2%:R.
Proof. by rewrite /mh invrN invrK. Qed.
Lemma mh0 : mh != 0.
Proof. by rewrite /mh oppr_eq0 invr_eq0 nat_neq0. Qed.
Lemma mhl : mh^-1 + 1 = -1.
Proof. by rewrite mhV mulr2n opprD addrNK. Qed.
Lemma zrm1 : zeroed tolN (-1) = -1 :> R.
Proof. by rewrite zr_id // normrN normr1; exact: (@tN_nat 1). Qed.
Lemma zr1 : zeroed tolN 1 = 1 :> R.
Proof. by rewrite zr_id // normr1; exact: (@tN_nat 1). Qed.
Lemma m1le : -1 <= 1 :> R.
Proof. by apply: (@le_trans _ _ 0); rewrite ?lerN10 ?ler01. Qed.
Lemma lmh : lambda_min (@QR1 R) (@EIG1 R) tolN Psi mh%:M 1 = -1.
Proof. by rewrite lmin1 mhl zrm1 zr1; case: leP => //; rewrite ltNge m1le. Qed.
Lemma sq0 : (0 ^+ 2 < tolN :> R) = true.
Proof. by rewrite expr2 mul0r; exact: tN. Qed.
Notation ph g1 D := (phi (@QR1 R) (@EIG1 R) tolN tolE Psi mh%:M (v2 g1 0) 1 D).
Notation nw D := (newton (@QR1 R) (@EIG1 R) tolN tolE meps Psi mh%:M (v2 (-1) 0) 1 D).
Lemma pole_phi (x D : R) : `|x - 1| < tolE -> ph (-1) D x = Some (-1 / D, 1 / tolE).
Proof.
move=> hx; rewrite /phi !ex2 !L0 ?mhl ?zrm1 !a0 addrC hx orbT /= normrN normr1.
by rewrite (@tE_nat 1).
Qed.
Lemma pole_newton (j i : nat) : (i + j <= 20)%N ->
  nw 20%:R j (1 + i%:R * (tolE / 20%:R)) = Some (1 + (i + j)%:R * (tolE / 20%:R)).
Proof.
elim: j i => [|j IH] i ij /=; first by rewrite addn0.
have n20 : 20%:R != 0 :> R by exact: nat_neq0.
have nE : tolE != 0 by rewrite gt_eqF // tE0.
rewrite pole_phi; last first.
  rewrite addrAC subrr add0r ger0_norm; last by rewrite mulr_ge0 ?ler0n // divr_ge0 ?ler0n // ltW // tE0.
  rewrite mulrCA -ltr_pdivl_mull ?tE0 // mulVf // ltr_pdivr_mulr ?ltr0n // mul1r ltr_nat.
  by rewrite (leq_trans _ ij) // addnS ltnS leq_addr.
have -> : (`|-1 / 20%:R| <= meps) = false.
  apply/negbTE; rewrite -ltNge mulN1r normrN ger0_norm ?invr_ge0 ?ler0n //.
  case: tol => _ _ _ _ h; apply: lt_le_trans h _; rewrite lef_pinv ?posrE ?ltr0n // ler_nat //.
rewrite mul1r invr_eq0 (negbTE nE).
have -> : 1 + i%:R * (tolE / 20%:R) - -1 / 20%:R / tolE^-1 = 1 + i.+1%:R * (tolE / 20%:R).
  rewrite invrK (mulrSr 1 i) mulrDl mul1r -addrA; congr (_ + (_ + _)).
  by rewrite mulN1r mulNr opprK mulrC.
by rewrite IH ?addSnnS // -addSnnS.
Qed.
Lemma pole_runs : run1 mh 1 (-1) 0 20%:R = Step (v2 (2%:R / tolE) 0) Exceeded.
Proof.
have n20 : 20%:R != 0 :> R by exact: nat_neq0.
have nE : tolE != 0 by rewrite gt_eqF // tE0.
have n2 : 2%:R != 0 :> R by exact: nat_neq0.
rewrite /run1 /subproblem lmh oppr_gt0 ltr10 andFb oppr_le0 ler01 andTb opprK.
have E1 : ph (-1) 20%:R 1 = Some (-1 / 20%:R, 1 / tolE) by rewrite pole_phi // subrr normr0 tE0.
rewrite /phi_positive E1; lazy beta iota delta [fst]; rewrite mulN1r oppr_gt0 invr_lt0 ltrn0; lazy beta iota.
have Es : start (@QR1 R) (@EIG1 R) tolN Psi mh%:M (v2 (-1) 0) 1 20%:R = 1.
  rewrite /start lmh oppr_gt0 ltr10 opprK; case: ltP => // h; exfalso; move: h.
  rewrite /sigmaHat; case: (bmax_in (fun i => aj (@QR1 R) (@EIG1 R) tolN Psi mh%:M (v2 (-1) 0) i / 20%:R - Lambda (@QR1 R) (@EIG1 R) tolN Psi mh%:M 1 i) 0) => [->|[i ->]].
    by rewrite ltr10.
  case: (ord_two i) => ->.
    rewrite a0 L0 mhl zrm1 opprK ltr_addr mulN1r oppr_gt0 invr_lt0 ltrn0 //.
  by rewrite a1 sq0 mul0r L1 zr1 add0r ltNge m1le.
rewrite Es; have := @pole_newton 10 0 isT; rewrite mul0r addr0 => ->.
have -> : 1 + (1 + (0 + 10)%:R * (tolE / 20%:R)) = 2%:R + tolE / 2%:R.
  rewrite addrA -[1 + 1]/(2%:R); congr (_ + _); rewrite mulrCA; congr (_ * _).
  by rewrite add0n (natrM R 10 2 : 20%:R = _) invfM mulrA mulfV ?mul1r // nat_neq0.
have tp : 0 < 2%:R + tolE / 2%:R by rewrite addr_gt0 ?divr_gt0 ?ltr0n ?tE0.
have Ev : 2%:R + tolE / 2%:R + (2%:R + tolE / 2%:R) * (2%:R + tolE / 2%:R) * mh =
          - ((2%:R + tolE / 2%:R) * (tolE / 4%:R)).
  have Th : (2%:R + tolE / 2%:R) / 2%:R = 1 + tolE / 4%:R.
    by rewrite mulrDl mulfV // -mulrA -invfM -natrM.
  by rewrite /mh mulrN -mulrA Th mulrDr mulr1 opprD addrA subrr add0r.
have vn : 2%:R + tolE / 2%:R + (2%:R + tolE / 2%:R) * (2%:R + tolE / 2%:R) * mh != 0.
  by rewrite Ev oppr_eq0 mulf_neq0 ?gt_eqF // divr_gt0 ?ltr0n ?tE0.
rewrite (smw1 _ _ tol Exceeded (lt0r_neq0 tp) vn) Ev; congr (Step (v2 _ _) _); last by rewrite mul0r oppr0.
have /eqP tn : 2%:R + tolE / 2%:R != 0 by rewrite gt_eqF.
have E2 : 2%:R * (2%:R + tolE / 2%:R) = 4%:R + tolE by rewrite mulrDr mulrCA mulfV // mulr1 -natrM.
have /eqP n4 : 4%:R != 0 :> R by exact: nat_neq0.
have -> : 2%:R / tolE = (4%:R + tolE) / (tolE * (2%:R + tolE / 2%:R)).
  by rewrite -E2 -mulf_div mulfV ?mulr1 //; exact/eqP.
move: (2%:R + _) tn (4%:R : R) n4 => t tn f n4; move/eqP: nE => nE; toR R; field; repeat split; try assumption.
change (- (t * tolE) <> 0); apply/eqP; rewrite oppr_eq0 mulf_neq0 //; exact/eqP.
Qed.

(** ** The hard case *)
Section hardcase.
Variables (m gamma Delta : R).
Hypothesis D0 : 0 < Delta.
Notation zr := (zeroed tolN).
Notation l0 := (m^-1 + gamma).
Lemma absdiv (a t : R) : a * a / t / t = (a / t) ^+ 2.
Proof. by rewrite expr2 mulrACA mulrA. Qed.
Lemma phi_first g1 x : tolE < `|g1| -> tolE < `|zr l0 + x| -> `|g1 / (zr l0 + x)| < Delta ->
  phi_positive (@QR1 R) (@EIG1 R) tolN tolE Psi m%:M (v2 g1 0) gamma Delta x.
Proof.
move=> h1 h2 lt; rewrite /phi_positive /phi !ex2 !a0 !a1 !L0 !L1 sq0 normr0 tE0 orbT /= h1 (lt_gtF h2) (lt_gtF tE0) /=.
rewrite /sums !sum2 !a0 !a1 !L0 !L1 sq0 normr0 h1 h2 (lt_gtF tE0) /= !addr0 absdiv sqrtr_sqr.
by case: eqP => //= /eqP n0; rewrite !mul1r subr_gt0 ltf_pinv ?posrE // lt_neqAle eq_sym n0 normr_ge0.
Qed.
Lemma phi_second g2 x : (g2 ^+ 2 < tolN) = false -> tolE < `|g2| -> tolE < `|zr gamma + x| -> `|g2| / `|zr gamma + x| < Delta ->
  phi_positive (@QR1 R) (@EIG1 R) tolN tolE Psi m%:M (v2 0 g2) gamma Delta x.
Proof.
move=> sq h1 h2 lt; rewrite /phi_positive /phi !ex2 !a0 !a1 !L0 !L1 sq normr0 normr_id tE0 /= h1 (lt_gtF h2) (lt_gtF tE0) /=.
rewrite /sums !sum2 !a0 !a1 !L0 !L1 sq normr0 normr_id h1 h2 (lt_gtF tE0) /= !add0r absdiv sqrtr_sqr normf_div normr_id.
by case: eqP => //= /eqP n0; rewrite !mul1r subr_gt0 ltf_pinv ?posrE // lt_neqAle eq_sym n0 divr_ge0.
Qed.
Lemma pstar1 g1 g2 x : pstar (@QR1 R) (@EIG1 R) tolN Psi m%:M (v2 g1 g2) gamma x =
  v2 (- (if `|zr l0 + x| > tolN then g1 / (zr l0 + x) else 0)) (if `|gamma + x| > tolN then - (g2 / (gamma + x)) else 0).
Proof.
rewrite /pstar Par1 gpar1.
have C (c : 'cV[R]_1) : v2 1 0 *m c = v2 (c 0 0) 0.
  by apply: v2P; rewrite !mxE big_ord1 !mxE /= ?mul1r ?mul0r.
have V : (\col_i vhard (@QR1 R) (@EIG1 R) tolN Psi m%:M (v2 g1 g2) gamma x i) 0 0 = (if `|zr l0 + x| > tolN then g1 / (zr l0 + x) else 0).
  by rewrite mxE /vhard lift2 L0 a0.
rewrite !C V; clear V.
case: ifP => _; apply: v2P; rewrite !mxE /= ?eqxx ?mulr1n ?oppr0 ?addr0 //.
  by rewrite subrr mulr0 add0r.
by rewrite sub0r mulrN mulrC.
Qed.
End hardcase.

Lemma wrong_runs : run1 3%:R^-1 (-1) 9%:R 0 5%:R = Step (v2 1 0) NegativeCurvature.
Proof.
have t2 := @tN_nat 2 isT; have t3 := @tN_nat 3 isT; have t1 := @tN_nat 1 isT.
have e9 := @tE_nat 9 isT; have e3 := @tE_nat 3 isT.
have n3 : 3%:R != 0 :> R by exact: nat_neq0.
have n2 : 2%:R != 0 :> R by exact: nat_neq0.
have l0 : 3%:R^-1^-1 + -1 = 2%:R :> R by rewrite invrK -[3%:R]/((2 + 1)%:R) natrD addrK.
have z0 : zeroed tolN (3%:R^-1^-1 + -1) = 2%:R by rewrite l0 zr_id // normr_nat.
have lm : lambda_min (@QR1 R) (@EIG1 R) tolN Psi (3%:R^-1)%:M (-1) = -1.
  rewrite lmin1 z0 zrm1; case: leP => // h; exfalso; move: h; rewrite leNgt (lt_le_trans _ (ler0n _ 2)) // oppr_lt0 ltr01 //.
have s3 : 2%:R + 1 = 3%:R :> R by rewrite -[3%:R]/((2 + 1)%:R) natrD.
have q9 : 9%:R / 3%:R = 3%:R :> R by rewrite -[9%:R]/((3 * 3)%:R) natrM mulfK.
rewrite /run1 /subproblem lm oppr_gt0 ltr10 andFb oppr_le0 ler01 andTb opprK.
rewrite phi_first; [|by rewrite ltr0n|by rewrite normr_nat|by rewrite z0 s3 normr_nat|by rewrite z0 s3 q9 normr_nat ltr_nat].
rewrite /hard lm opprK pstar1 z0 s3 normr_nat t3 q9 addNr normr0 (lt_gtF tN) andbF oppr_lt0 ltr01 /=.
rewrite vdE ipr2 v2_0 v2_1 mulr0 addr0 mulrNN -!natrM -natrB // ltrn0 L0 z0.
have -> : (`|-1 - 2%:R| < tolN :> R) = false.
  apply/negbTE; rewrite -leNgt -opprD normrN addrC s3 normr_nat ltW //.
have -> : Num.sqrt (5 * 5 - 3 * 3)%:R = 4%:R :> R by rewrite -[(_ - _)%N]/((4 ^ 2)%N) natrX sqrtr_sqr normr_nat.
rewrite enum_ordS /=.
have Eu : ucand (@QR1 R) (@EIG1 R) Psi (3%:R^-1)%:M (ord0 : 'I_1) = v2 2%:R 0.
  rewrite /ucand Par1; apply: v2P; rewrite !mxE !big_ord1 !mxE /=; [by rewrite mulr1 |by rewrite mul0r add0r].
rewrite Eu vdE ipr2 v2_0 v2_1 mulr0 addr0 -expr2 sqrtr_sqr normr_nat t2 /= (negbTE n2); congr (Step _ _).
apply: v2P; rewrite !mxE /=; last by rewrite mulr0 addr0.
by rewrite divfK // -[4%:R]/((1 + 3)%:R) natrD addrK.
Qed.
Lemma sq1 : (1 ^+ 2 < tolN :> R) = false.
Proof. by apply/negbTE; rewrite -leNgt expr1n ltW // (@tN_nat 1). Qed.
Lemma hard_to_run : run1 mh 1 0 1 1 = hard (@QR1 R) (@EIG1 R) tolN late Psi mh%:M (v2 0 1) 1 1.
Proof.
have e1 := @tE_nat 1 isT; have e2 := @tE_nat 2 isT.
rewrite /run1 /subproblem lmh oppr_gt0 ltr10 andFb oppr_le0 ler01 andTb opprK.
rewrite phi_second ?ltr01 ?sq1 ?zr1 ?normr1 //; last by rewrite -[1 + 1]/(2%:R) normr_nat mul1r invf_lt1 ?ltr1n ?ltr0n.
by rewrite -[1 + 1]/(2%:R) normr_nat.
Qed.
Lemma hard_value : hard (@QR1 R) (@EIG1 R) tolN late Psi mh%:M (v2 0 1) 1 1 =
  if late then StalePointer else Step (v2 (Num.sqrt (3%:R / 4%:R)) (- 2%:R^-1)) NegativeCurvature.
Proof.
have t1 := @tN_nat 1 isT; have t2 := @tN_nat 2 isT.
have n2 : 2%:R != 0 :> R by exact: nat_neq0.
have n4 : 4%:R != 0 :> R by exact: nat_neq0.
rewrite /hard lmh opprK oppr_lt0 ltr01 -[1 + 1]/(2%:R) normr_nat t2 andbT /=; case: late => //.
rewrite pstar1 mhl zrm1 addNr normr0 (lt_gtF tN) oppr0 -[1 + 1]/(2%:R) normr_nat t2 !mul1r.
rewrite vdE ipr2 v2_0 v2_1 mulr0 add0r mulrNN -invfM -natrM.
have -> : 1 - (2 * 2)%:R^-1 = 3%:R / 4%:R :> R.
  rewrite (_ : (2 * 2)%:R = 4%:R :> R) // -[X in X - _](mulfV n4) -[X in _ - X]mul1r -mulrBl; congr (_ / _).
  by rewrite -[4%:R]/((3 + 1)%:R) natrD addrK.
have -> : (3%:R / 4%:R < 0 :> R) = false by apply/negbTE; rewrite -leNgt divr_ge0 ?ler0n.
rewrite L0 mhl zrm1 subrr normr0 tN Par1; congr (Step _ _).
have -> : \sum_i0 \sum_j Psi i0 j * Psi i0 j = 1 :> R.
  by rewrite (sum2 predT) /= !big_ord1 v2_0 v2_1 mulr0 mulr1 addr0.
by rewrite sqrtr1 divr1; apply: v2P; rewrite !mxE !big_ord1 !mxE /= ?mulr1 ?mulr0 ?addr0 ?add0r.
Qed.
Lemma zero_runs : run1 (-1) 1 0 1 2%:R = Step (v2 0 (-1)) NegativeCurvature.
Proof.
have e1 := @tE_nat 1 isT; have t1 := @tN_nat 1 isT.
have l0 : (-1)^-1 + 1 = 0 :> R by rewrite invrN1 addNr.
have lm : lambda_min (@QR1 R) (@EIG1 R) tolN Psi (-1)%:M 1 = 0.
  by rewrite lmin1 l0 zr_0 zr1; case: leP => //; rewrite ltr10.
rewrite /run1 /subproblem lm ltxx lexx /= oppr0.
rewrite phi_second ?ltr0n ?sq1 ?zr1 ?addr0 ?normr1 ?divr1 ?ltr1n //.
rewrite /hard lm ltxx /= oppr0 pstar1 l0 zr_0 addr0 normr0 (lt_gtF tN) oppr0 addr0 normr1 t1 divr1 //.
Qed.
End facts.
