(** Concrete subproblems that meet the conditions of the theorems about LRTRSR1's solver. *)
From mathcomp Require Import all_ssreflect all_algebra.
Require Import Ring Field.
From Verif Require Import MxTac StiefelSpec StiefelModel StiefelProofs SPDSpec LSR1SubModel LSR1SubSpec LSR1SubCond LSR1SubLin LSR1Secular LSR1SubProofs LSR1SubHard LSR1SubWitness LSR1SubFacts LSR1SubFinal.
Import Order.TTheory GRing.Theory Num.Theory.
Set Implicit Arguments.
Unset Strict Implicit.
Local Open Scope ring_scope.

Section ex.
Variable R : rcfType.
Variables (tolN tolE meps : R) (late : bool).
Hypothesis tol : tolerances tolN tolE meps.
Let tN := tN0 tol.
Notation Psi := (v2 1 0 : 'cV[R]_(1 + 1)).
Section one.
Variables (m gamma g1 g2 Delta : R).
Hypothesis m0 : m != 0.
Lemma cur0 : curvature (@QR1 R) (@EIG1 R) Psi m%:M gamma ord0 = m^-1 + gamma.
Proof. by rewrite /curvature -lift2 arr_lift d1. Qed.
Lemma cur1 : curvature (@QR1 R) (@EIG1 R) Psi m%:M gamma ord_max = gamma.
Proof. by rewrite /curvature arr_max. Qed.
Lemma along1 j : along (@QR1 R) (@EIG1 R) Psi m%:M (v2 g1 g2) j = g1.
Proof. by have := gpar1 m g1 g2; rewrite /along /gpar => ->; rewrite ord1 mxE eqxx mulr1n. Qed.
Lemma rest1 : rest (@QR1 R) (@EIG1 R) Psi m%:M (v2 g1 g2) = v2 0 g2.
Proof.
have := gpar1 m g1 g2; rewrite /rest /gpar => ->; rewrite Par1 mul_mx_scalar; apply: v2P.
  by rewrite !mxE /= mulr1 subrr.
by rewrite !mxE /= mulr0 subr0.
Qed.
Lemma rest1_sq : ipr (rest (@QR1 R) (@EIG1 R) Psi m%:M (v2 g1 g2)) (rest (@QR1 R) (@EIG1 R) Psi m%:M (v2 g1 g2)) = g2 * g2.
Proof. by rewrite rest1 ipr2 v2_0 v2_1 mulr0 add0r. Qed.
Lemma spectrum1 : legible tolN (m^-1 + gamma) -> legible tolN gamma -> spectrum_legible (@QR1 R) (@EIG1 R) tolN Psi m%:M gamma.
Proof. by move=> h0 h1 i; case: (ord_two i) => ->; rewrite ?cur0 ?cur1. Qed.
Lemma gradient1 : legible tolE g1 -> g2 = 0 \/ tolN <= g2 * g2 -> gradient_legible (@QR1 R) (@EIG1 R) tolN tolE Psi m%:M (v2 g1 g2).
Proof.
move=> h0 h1; split=> [j|]; first by rewrite along1.
by rewrite /rest_legible rest1_sq; case: h1 => [->|]; [left; rewrite mul0r | right].
Qed.
Lemma solvable1 s : s + s * s * m != 0 -> solvable (@QR1 R) Psi m%:M (@QRk1 R) meps s.
Proof. by move=> h; split; [exact: qrk1_ok | exact: (acc1 tol)]. Qed.
End one.
Let n2 : 2%:R != 0 :> R. Proof. exact: nat_neq0. Qed.
Let t1 : tolN < 1. Proof. exact: (tN_nat tol (n := 1)). Qed.
Let e1 : tolE < 1. Proof. exact: (tE_nat tol (n := 1)). Qed.
Let leg n : (0 < n)%N -> legible tolN (n%:R : R).
Proof. by move=> h; right; rewrite normr_nat (tN_nat tol). Qed.
Let legE n : (0 < n)%N -> legible tolE (n%:R : R).
Proof. by move=> h; right; rewrite normr_nat (tE_nat tol). Qed.
Lemma interior_example : exists (Q : 'M[R]_(1 + 1, 1)) (M : 'M[R]_1) g eta,
  [/\ qr_at (@QR1 R) Q, eig_at (@EIG1 R) (Wm (@QR1 R) Q M), M \in unitmx, solvable (@QR1 R) Q M (@QRk1 R) meps 1 &
   [/\ rest_legible (@QR1 R) (@EIG1 R) tolN Q M g, spectrum_legible (@QR1 R) (@EIG1 R) tolN Q M 1, g != 0, ipr eta eta <= 2%:R ^+ 2 &
    subproblem (@QR1 R) (@EIG1 R) (@QRk1 R) tolN tolE meps late Q M g 1 2%:R = Step eta Minimum]].
Proof.
exists Psi, 1%:M, (v2 2%:R 1), (v2 (-1) (-1)); split.
- exact: qr1_ok.
- exact: eig1_ok.
- exact: unitmx1.
- by apply: solvable1; rewrite !mulr1.
- split.
  + by rewrite /rest_legible rest1_sq mulr1; right; exact: ltW.
  + by apply: spectrum1; rewrite ?invr1 ?oner_eq0 //; [exact: (leg (n := 2)) | exact: (leg (n := 1))].
  + by apply/eqP => /matrixP /(_ ord_max 0); rewrite v2_1 mxE => /eqP; rewrite oner_eq0.
  + by rewrite ipr2 v2_0 v2_1 !mulrNN !mulr1 -[1 + 1]/(2%:R) expr2 -natrM ler_nat.
  + exact: (interior_runs late tol).
Qed.
Lemma boundary_example : exists (Q : 'M[R]_(1 + 1, 1)) (M : 'M[R]_1) g eta,
  [/\ qr_at (@QR1 R) Q, eig_at (@EIG1 R) (Wm (@QR1 R) Q M), M \in unitmx,
   (forall s, (forall i, 0 < curvature (@QR1 R) (@EIG1 R) Q M 1 i + s) -> solvable (@QR1 R) Q M (@QRk1 R) meps (1 + s)) &
   [/\ spectrum_legible (@QR1 R) (@EIG1 R) tolN Q M 1, gradient_legible (@QR1 R) (@EIG1 R) tolN tolE Q M g,
    starts_clear (@QR1 R) (@EIG1 R) tolN tolE Q M g 1 1 &
    subproblem (@QR1 R) (@EIG1 R) (@QRk1 R) tolN tolE meps late Q M g 1 1 = Step eta Exceeded]].
Proof.
have [eta [E _]] := outside_runs late tol; exists Psi, 1%:M, (v2 4%:R 2%:R), eta.
have lp : 0 < lambda_min (@QR1 R) (@EIG1 R) tolN Psi 1%:M 1.
  rewrite lmin1 ?oner_eq0 // invr1 -[1 + 1]/(2%:R) (zr1 tol) zr_id; last by rewrite normr_nat (tN_nat tol).
  by rewrite lt_minr ltr0n ltr01.
split.
- exact: qr1_ok.
- exact: eig1_ok.
- exact: unitmx1.
- move=> s h; apply: solvable1; have := h ord_max; have := h ord0; rewrite cur0 ?oner_eq0 // cur1 invr1 => h0 h1.
  rewrite mulr1 -{1}[1 + s]mulr1 -mulrDr mulf_neq0 ?(gt_eqF h1) //.
  by rewrite addrA gt_eqF.
- split; last exact: E.
  + by apply: spectrum1; rewrite ?invr1 ?oner_eq0 //; [exact: (leg (n := 2)) | exact: (leg (n := 1))].
  + apply: gradient1; first exact: legE.
    by right; rewrite -natrM ltW // (tN_nat tol).
  + move=> i; rewrite /start lp addr0; case: (ord_two i) => ->; rewrite ?cur0 ?cur1 ?oner_eq0 ?e1 // invr1.
    exact: (tE_nat tol (n := 2)).
Qed.
Lemma zero_example : exists (Q : 'M[R]_(1 + 1, 1)) (M : 'M[R]_1) g eta,
  [/\ qr_at (@QR1 R) Q, eig_at (@EIG1 R) (Wm (@QR1 R) Q M), spectrum_legible (@QR1 R) (@EIG1 R) tolN Q M 1,
   gradient_legible (@QR1 R) (@EIG1 R) tolN tolE Q M g &
   (forall i, 0 <= curvature (@QR1 R) (@EIG1 R) Q M 1 i) /\
   subproblem (@QR1 R) (@EIG1 R) (@QRk1 R) tolN tolE meps late Q M g 1 2%:R = Step eta NegativeCurvature].
Proof.
exists Psi, (-1)%:M, (v2 0 1), (v2 0 (-1)).
have m0 : -1 != 0 :> R by rewrite oppr_eq0 oner_eq0.
have l0 : (-1)^-1 + 1 = 0 :> R by rewrite invrN1 addNr.
split; [exact: qr1_ok | exact: eig1_ok | | |].
- by apply: spectrum1 => //; [rewrite l0; left | exact: (leg (n := 1))].
- by apply: gradient1; [left | right; rewrite mulr1 ltW].
- split; last exact: (zero_runs late tol).
  by move=> i; case: (ord_two i) => ->; rewrite ?cur0 ?cur1 // ?l0 ?ler01.
Qed.
Lemma hard_example : late = false -> exists (Q : 'M[R]_(1 + 1, 1)) (M : 'M[R]_1) g eta,
  [/\ qr_at (@QR1 R) Q, eig_at (@EIG1 R) (Wm (@QR1 R) Q M), spectrum_legible (@QR1 R) (@EIG1 R) tolN Q M 1,
   gradient_legible (@QR1 R) (@EIG1 R) tolN tolE Q M g &
   [/\ curvature (@QR1 R) (@EIG1 R) Q M 1 ord0 < 0, curvature (@QR1 R) (@EIG1 R) Q M 1 ord0 + tolN < 1 &
   subproblem (@QR1 R) (@EIG1 R) (@QRk1 R) tolN tolE meps late Q M g 1 1 = Step eta NegativeCurvature]].
Proof.
move=> lf; exists Psi, (mh R)%:M, (v2 0 1), (v2 (Num.sqrt (3%:R / 4%:R)) (- 2%:R^-1)).
have m0 := mh0 R.
split; [exact: qr1_ok | exact: eig1_ok | | |].
- by apply: spectrum1 => //; [rewrite mhl; right; rewrite normrN normr1 | exact: (leg (n := 1))].
- by apply: gradient1; [left | right; rewrite mulr1 ltW].
- rewrite cur0 // mhl; split.
  + by rewrite oppr_lt0 ltr01.
  + by rewrite addrC ltr_subl_addr; apply: lt_trans t1 _; rewrite ltr_addl ltr01.
  + by have := hard_to_run late tol; rewrite (hard_value late tol) lf.
Qed.
End ex.
Lemma tolerances_example (R : rcfType) : tolerances (1000%:R^-1 : R) 1000%:R^-1 1000%:R^-1.
Proof.
have p : 0 < 1000%:R^-1 :> R by rewrite invr_gt0 ltr0n.
have l : 1000%:R^-1 < 100%:R^-1 :> R by rewrite ltf_pinv ?posrE ?ltr0n // ltr_nat.
by split=> //; exact: ltW.
Qed.
