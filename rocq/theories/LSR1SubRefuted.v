(** Subproblems for which the solver of LRTRSR1 is wrong. *)
From mathcomp Require Import all_ssreflect all_algebra.
Require Import Ring Field.
From Verif Require Import MxTac StiefelSpec StiefelModel StiefelProofs SPDSpec LSR1SubModel LSR1SubSpec LSR1SubCond LSR1SubLin LSR1Secular LSR1SubProofs LSR1SubHard LSR1SubWitness LSR1SubFacts LSR1SubFinal LSR1SubExamples LSR1SubTwo.
Import Order.TTheory GRing.Theory Num.Theory.
Set Implicit Arguments.
Unset Strict Implicit.
Local Open Scope ring_scope.

(** The solver returns o for a problem with correct factorisations. *)
Definition returns (R : rcfType) (tolN tolE meps : R) (late : bool) (k q : nat) (Psi : 'M[R]_(k + q, k)) (M : 'M[R]_k)
  (g : 'cV[R]_(k + q)) (gamma Delta : R) (o : outcome 'cV[R]_(k + q)) : Prop :=
  exists QR EIG QRk, [/\ qr_at QR Psi, eig_at EIG (Wm QR Psi M), (forall s, qr_at QRk (vw QR Psi M s)),
    M \in unitmx & 0 < Delta /\ subproblem QR EIG QRk tolN tolE meps late Psi M g gamma Delta = o].

Section ref.
Variable R : rcfType.
Variables (tolN tolE meps : R) (late : bool).
Hypothesis tol : tolerances tolN tolE meps.
Let tN := tN0 tol.
Notation Psi := (v2 1 0 : 'cV[R]_(1 + 1)).
Let n2 : 2%:R != 0 :> R. Proof. exact: nat_neq0. Qed.
Lemma returns1 m gamma g1 g2 Delta o : m != 0 -> 0 < Delta -> run1 tolN tolE meps late m gamma g1 g2 Delta = o ->
  returns tolN tolE meps late Psi m%:M (v2 g1 g2) gamma Delta o.
Proof.
move=> m0 D0 E; exists (@QR1 R), (@EIG1 R), (@QRk1 R); split; [exact: qr1_ok | exact: eig1_ok | | exact: Mu | by split].
by move=> s; exact: qrk1_ok.
Qed.

Lemma truncated_refuted : exists (Q : 'M[R]_(1 + 1, 1)) M g gamma Delta eta,
  returns tolN tolE meps late Q M g gamma Delta (Step eta Minimum) /\ Delta ^+ 2 < ipr eta eta.
Proof.
exists Psi, 1%:M, (v2 0 tolN), (2%:R * tolN), 4%:R^-1, (v2 0 (- 2%:R^-1)); split.
  by apply: returns1; [exact: oner_neq0 | rewrite invr_gt0 ltr0n | exact: truncated_runs].
rewrite ipr2 v2_0 v2_1 mulr0 add0r mulrNN -expr2 ltr_sqr ?nnegrE ?invr_ge0 ?ler0n //.
by rewrite ltf_pinv ?posrE ?ltr0n // ltr_nat.
Qed.

Lemma deficient_refuted : 0 < meps -> exists (Q : 'M[R]_(2 + 0, 2)) M g gamma Delta eta v,
  returns tolN tolE meps late Q M g gamma Delta (Step eta Minimum) /\
  [/\ compact gamma Q M = 2%:R%:M, Delta ^+ 2 < ipr eta eta, ipr v v <= Delta ^+ 2 & quad (compact gamma Q M) g v < quad (compact gamma Q M) g eta].
Proof.
move=> e0; have [EB E] := deficient_runs late tol e0.
exists (dg2 1 meps), (dg2 1 (meps * meps)), (c2 2%:R 0), 1, 1, (c2 (- 2%:R) 0), (c2 (-1) 0); split.
  exists (@QR2 R), (@EIG2 R), (@QR2 R); split; [exact: qr2_ok | | | | by split; [exact: ltr01 | exact: E]].
  - by rewrite Wm2 ?oner_neq0 ?mulf_neq0 ?gt_eqF //; exact: eig2_ok.
  - by move=> s; rewrite /vw /Rf /QR2 /= dgT !dgM !dgZ dgD; exact: qr2_ok.
  - by apply: dgU; rewrite ?oner_neq0 // mulf_neq0 // gt_eqF.
have ip2 (x y x' y' : R) : ipr (c2 x y) (c2 x' y') = x * x' + y * y'.
  by rewrite -vdE /vd (sum2 predT) /= !mxE.
have cZ (t x y : R) : t *: c2 x y = c2 (t * x) (t * y) by apply/matrixP => i j; rewrite !mxE; case: ifP.
rewrite EB; split=> //; rewrite ?ip2 ?mulr0 ?addr0 ?mulrNN ?mulr1 ?expr1n //.
  by rewrite -natrM ltr1n.
rewrite /quad !mul_scalar_mx !cZ !ip2 !mulr0 !addr0.
have -> : 2%:R * -1 + -1 * (2%:R * -1) / 2%:R = -1 :> R.
  by rewrite mulN1r !mulrN1 opprK mulfV // mulr2n opprD addrNK.
have -> : 2%:R * - 2%:R + - 2%:R * (2%:R * - 2%:R) / 2%:R = 0 :> R.
  by rewrite mulrN mulrNN mulrA mulfK // addNr.
by rewrite oppr_lt0 ltr01.
Qed.

Lemma outside_refuted : exists (Q : 'M[R]_(1 + 1, 1)) M g gamma Delta eta,
  returns tolN tolE meps late Q M g gamma Delta (Step eta Exceeded) /\ positive (compact gamma Q M) /\ Delta ^+ 2 < ipr eta eta.
Proof.
have [eta [E lt]] := outside_runs late tol.
exists Psi, 1%:M, (v2 4%:R 2%:R), 1, 1, eta; split; first by apply: returns1; rewrite ?oner_neq0 ?ltr01.
split; last by rewrite expr1n.
move=> v v0; rewrite compact1 ?oner_neq0 // ipr2 v2_0 v2_1 invr1 mul1r.
rewrite mulrDl mul1r mulrDr -addrA -ipr2 ltr_spaddr ?ipr_gt0 //; exact: sqr_ge0.
Qed.

Lemma pole_refuted : exists (Q : 'M[R]_(1 + 1, 1)) M g gamma Delta eta,
  returns tolN tolE meps late Q M g gamma Delta (Step eta Exceeded) /\
  [/\ ipr g g = 1, Delta = 20%:R & ipr eta eta = (Delta / (10%:R * tolE)) ^+ 2].
Proof.
have n10 : 10%:R != 0 :> R by exact: nat_neq0.
exists Psi, (mh R)%:M, (v2 (-1) 0), 1, 20%:R, (v2 (2%:R / tolE) 0); split.
  by apply: returns1; [exact: mh0 | rewrite ltr0n | exact: (pole_runs late tol)].
split=> //; rewrite !ipr2 !v2_0 !v2_1 mulr0 addr0; first by rewrite mulrNN mulr1.
by rewrite -expr2 -[20%:R]/((10 * 2)%:R) natrM -mulf_div mulfV // mul1r.
Qed.

Lemma wrong_refuted : exists (Q : 'M[R]_(1 + 1, 1)) M g gamma Delta eta,
  returns tolN tolE meps late Q M g gamma Delta (Step eta NegativeCurvature) /\ 0 < quad (compact gamma Q M) g eta.
Proof.
exists Psi, (3%:R^-1)%:M, (v2 9%:R 0), (-1), 5%:R, (v2 1 0).
have n3 : 3%:R^-1 != 0 :> R by rewrite invr_eq0; exact: nat_neq0.
split; first by apply: returns1; [exact: n3 | rewrite ltr0n | exact: (wrong_runs late tol)].
rewrite /quad compact1 // !ipr2 !v2_0 !v2_1 !mulr0 !mulr1 !addr0 invrK mul1r.
rewrite addr_gt0 ?ltr0n // divr_gt0 ?ltr0n // subr_gt0 ltr1n //.
Qed.
Lemma stale_refuted : late = true -> exists (Q : 'M[R]_(1 + 1, 1)) M g gamma Delta,
  returns tolN tolE meps late Q M g gamma Delta StalePointer.
Proof.
move=> lt; exists Psi, (mh R)%:M, (v2 0 1), 1, 1; apply: returns1; [exact: mh0 | exact: ltr01 |].
by rewrite (hard_to_run late tol) (hard_value late tol) lt.
Qed.
Lemma bounds_refuted : late = false -> exists (Q : 'M[R]_(2 + 0, 2)) M g gamma Delta,
  returns tolN tolE meps late Q M g gamma Delta OutOfBounds.
Proof.
move=> lt; have m0 := mh0 R; exists (dg2 1 1), (dg2 (mh R) 1), (c2 0 3%:R), 1, 2%:R.
exists (@QR2 R), (@EIG2 R), (@QR2 R); split; [exact: qr2_ok | | | | ].
- by rewrite Wm2 ?oner_neq0 //; exact: eig2_ok.
- by move=> s; rewrite /vw /Rf /QR2 /= dgT !dgM !dgZ dgD; exact: qr2_ok.
- by apply: dgU; rewrite ?oner_neq0.
- by split; [rewrite ltr0n | rewrite lt; exact: bounds_runs].
Qed.
End ref.
