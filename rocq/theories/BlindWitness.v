(** The statements of the theorems about blind deconvolution, collected, and a concrete case. *)
From mathcomp Require Import all_ssreflect all_algebra.
From mathcomp.real_closed Require Import complex.
Require Import Ring Field.
From Verif Require Import MxTac CStieSpec CStieModel CMx PhaseModel PhaseProofs BlindModel BlindSpec BlindProofs.
Import Order.TTheory GRing.Theory Num.Theory.
Set Implicit Arguments.
Unset Strict Implicit.
Local Open Scope ring_scope.
Local Open Scope complex_scope.

Section facts.
Variables (R : rcfType) (n1 n2 N : nat).
Local Notation C := R[i].
Local Notation re := (@complex.Re R).
Local Notation im := (@complex.Im R).
Local Notation L := (n1 * n2)%N.
Add Field bw_field : (rcf_field R).
Variables (w1 w2 : C) (haar ihaar : 'M[C]_L) (B : 'M[C]_(L, N)) (Cm : 'M[C]_L).
Variables (y : 'cV[C]_L) (rho d mu : R).
Lemma fact_cost (h : 'cV[C]_N) (m : 'cV[C]_L) : d != 0 -> mu != 0 ->
  cost w1 w2 ihaar B Cm y rho d mu h m = misfit w1 w2 ihaar B Cm y (h *m adj m) + penalty w1 w2 B rho d mu h m.
Proof.
move=> Hd Hmu; rewrite costE /main /misfit /pen /penalty; congr (_ + _).
  rewrite innerE; apply: eq_bigr => i _; rewrite /res.
  have -> : (dft2 n1 n2 w1 w2 *m B *m (h *m adj m) *m adj (adj (dft2 n1 n2 w1 w2) *m ihaar *m Cm)) i i =
    had (P w1 w2 B *m h) (cj (S w1 w2 ihaar Cm *m m)) i 0.
    rewrite hadE cjE -/(P w1 w2 B) -/(S w1 w2 ihaar Cm) mulmxA -mulmxA -adjM mxE big_ord_recl big_ord0 addr0.
    by rewrite [adj _ _ _]mxE.
  move: (had _ _) => v; rewrite /sqmod !mxE; move: (y i 0 - v i 0) => z.
  by rewrite reM reJ imJ !expr2; rng R.
rewrite mulr_sumr; apply: eq_bigr => i _; congr (_ * _ ^+ 2).
have -> : L%:R * sqmod ((dft2 n1 n2 w1 w2 *m B *m h) i 0) * cinner m m / (8%:R * d ^+ 2 * mu ^+ 2) - 1 =
  scale_of n1 n2 d mu * rownorm2 (P w1 w2 B *m h) i * norm2V m - 1.
  have -> : sqmod ((dft2 n1 n2 w1 w2 *m B *m h) i 0) = rownorm2 (P w1 w2 B *m h) i by rewrite /rownorm2 /sqmod !expr2.
  rewrite /norm2V cdotE /scale_of; congr (_ - 1); move: (rownorm2 _ i) (cinner m m) => a c.
  have E : (8%:R : R) != 0 by rewrite pnatr_eq0.
  rewrite !expr2; move: (8%:R : R) (L%:R : R) E Hd Hmu => e l /eqP E /eqP Hd /eqP Hmu.
  by toR R; field.
by rewrite /excess; case: ltrP.
Qed.
Lemma fact_scaling (a : C) (h : 'cV[C]_N) (m : 'cV[C]_L) : a != 0 -> d != 0 -> mu != 0 ->
  cost w1 w2 ihaar B Cm y rho d mu (a *: h) ((conjc a)^-1 *: m) = cost w1 w2 ihaar B Cm y rho d mu h m.
Proof.
move=> Ha Hd Hmu; rewrite (fact_cost _ _ Hd Hmu) (fact_cost h m Hd Hmu); congr (_ + _).
  have E : a * conjc ((conjc a)^-1) = 1 by rewrite -{1}[a]conjcK -cjM mulfV ?conjc_eq0 // conjc1.
  by rewrite adjZ kmulZl kmulZr scalerA ?E ?[_ * a]mulrC ?E scale1r.
rewrite /penalty; congr (_ * _); apply: eq_bigr => i _; congr (Num.max (_ / _ - 1) 0 ^+ 2).
rewrite -mulrA -[in RHS]mulrA; congr (_ * _).
have sqM (x z : C) : sqmod (x * z) = sqmod x * sqmod z by rewrite /sqmod reM imM !expr2; rng R.
have cinM (p : nat) (x : C) (v : 'cV[C]_p) : cinner (x *: v) (x *: v) = sqmod x * cinner v v.
  rewrite -!cdotE mulr_sumr; apply: eq_bigr => k _; rewrite mulr_sumr; apply: eq_bigr => j _.
  by rewrite mxE /sqmod reM imM !expr2; rng R.
rewrite cinM kmulZr mxE sqM mulrACA [_ * sqmod (_^-1)]mulrC -[RHS]mul1r; congr (_ * _).
have -> : sqmod a = sqmod (conjc a) by rewrite /sqmod reJ imJ sqrrN.
rewrite -sqM mulVf ?conjc_eq0 // /sqmod /=.
by rewrite expr1n expr0n addr0.
Qed.
Lemma fact_cost_all (h : 'cV[C]_N) (m : 'cV[C]_L) : d != 0 -> mu != 0 ->
  cost w1 w2 ihaar B Cm y rho d mu h m = misfit w1 w2 ihaar B Cm y (h *m adj m) + penalty w1 w2 B rho d mu h m /\
  (forall a : C, a != 0 -> cost w1 w2 ihaar B Cm y rho d mu (a *: h) ((conjc a)^-1 *: m) = cost w1 w2 ihaar B Cm y rho d mu h m) /\
  (0 <= rho -> 0 <= cost w1 w2 ihaar B Cm y rho d mu h m).
Proof.
move=> Hd Hmu; split; first exact: fact_cost.
split=> [a Ha | Hr]; first exact: fact_scaling.
rewrite (fact_cost h m Hd Hmu) addr_ge0 //.
  by rewrite sumr_ge0 // => i _; rewrite addr_ge0 ?sqr_ge0.
by rewrite mulr_ge0 // sumr_ge0 // => i _; rewrite sqr_ge0.
Qed.
Lemma fact_gradient U V dU dV : wavelet haar ihaar ->
  slope (fun t => cost w1 w2 ihaar B Cm y rho d mu (U + rscale t dU) (V + rscale t dV))
    (inner2 (egrad w1 w2 haar ihaar B Cm y rho d mu U V) (dU, dV)).
Proof. by move=> H; exact: cost_slope. Qed.
Lemma fact_polynomial U V dU dV : wavelet haar ihaar -> rho = 0 ->
  (exists c3 c4 : R, forall t : R, cost w1 w2 ihaar B Cm y rho d mu (U + rscale t dU) (V + rscale t dV) =
    cost w1 w2 ihaar B Cm y rho d mu U V + t * inner2 (egrad w1 w2 haar ihaar B Cm y rho d mu U V) (dU, dV)
    + t ^+ 2 / 2%:R * inner2 (ehess w1 w2 haar ihaar B Cm y U V dU dV) (dU, dV) + t ^+ 3 * c3 + t ^+ 4 * c4) /\
  (forall eU eV, inner2 (ehess w1 w2 haar ihaar B Cm y U V dU dV) (eU, eV) =
    inner2 (dU, dV) (ehess w1 w2 haar ihaar B Cm y U V eU eV)).
Proof.
move=> HW Hr; split; last first.
  move=> eU eV; rewrite (hess_sym w1 w2 B Cm y HW U V dU dV eU eV).
  by move: (ehess w1 w2 haar ihaar B Cm y U V eU eV) => [h1 h2]; rewrite /inner2 /= (cinnerC h1) (cinnerC h2).
pose r0 := res w1 w2 ihaar B Cm y U V.
pose p := dres w1 w2 ihaar B Cm U V dU dV.
pose q := ddres w1 w2 ihaar B Cm dU dV.
exists (2%:R * cinner p q), (cinner q q) => t.
have Hp u v : pen w1 w2 B rho d mu u v = 0 by rewrite /pen big1 // => i _; rewrite Hr mul0r.
have Hc u v : cost w1 w2 ihaar B Cm y rho d mu u v = main w1 w2 ihaar B Cm y u v by rewrite costE Hp addr0.
have Hg : egrad w1 w2 haar ihaar B Cm y rho d mu U V = gmain w1 w2 ihaar B Cm y U V.
  rewrite (egradE w1 w2 B Cm y rho d mu HW) [RHS]surjective_pairing.
  have -> : coef2 w1 w2 B rho d mu U V = 0 by rewrite /coef2 Hr big1 // => i _; rewrite !(mulr0, mul0r).
  have -> : \col_i ((coef w1 w2 B rho d mu U V i)%:C * (P w1 w2 B *m U) i 0) = 0.
    by apply/colP => i; rewrite [LHS]mxE [RHS]mxE /coef Hr !(mulr0, mul0r).
  by rewrite mulmx0 /rscale scale0r !addr0.
rewrite Hg (hess_diag w1 w2 B Cm y HW); move: Hc; move: (cost w1 w2 ihaar B Cm y rho d mu) => f Hc; rewrite !Hc main_line.
congr (_ + _ + _ + _); rewrite -/p -/q -/r0; move: (cinner p p) (cinner r0 q) => a c; rewrite expr2.
by toR R; field; exact (@two_neq0 R).
Qed.
End facts.

(** A concrete case: one image of 2 x 1 pixels, the Haar transform of two numbers. *)
Section witness.
Variable R : rcfType.
Definition wh : 'M[R[i]]_(2 * 1) := \matrix_(k, j) ((if (k == j) && (k != 0) then - 1 else 1) / Num.sqrt 2%:R)%:C.
Lemma blind_numbers : (2%:R : R) != 0 /\ (0 : R) <= 3%:R.
Proof. by rewrite pnatr_eq0 ler0n. Qed.
Lemma wh_wavelet : wavelet wh wh.
Proof.
have H : (Num.sqrt 2%:R : R) != 0 by rewrite sqrtr_eq0 -ltNge ltr0n.
have H2 : (Num.sqrt 2%:R : R) ^+ 2 = 2%:R by rewrite sqr_sqrtr ?ler0n.
have E : wh *m wh = 1%:M.
  apply/matrixP => k j; rewrite !mxE !big_ord_recl big_ord0 addr0 !mxE -!rcM -rcD.
  have E1 : (Num.sqrt 2%:R : R)^-1 * (Num.sqrt 2%:R)^-1 = 2%:R^-1 by rewrite -invfM -expr2 H2.
  have E2 : (2%:R^-1 : R) + 2%:R^-1 = 1 by rewrite -mulr2n -[_^-1 *+ 2]mulr_natl mulfV // pnatr_eq0.
  case: k => [[|[|k]] Hk] //; case: j => [[|[|j]] Hj] //=; rewrite ?mul1r ?mulN1r ?mulrN ?mulNr ?opprK E1 ?E2 ?subrr //.
split=> //; rewrite /unitary; have -> : adj wh = wh; last by [].
apply/matrixP => k j; rewrite !mxE cjR; case: k => [[|[|k]] Hk] //; case: j => [[|[|j]] Hj] //=.
Qed.
End witness.
