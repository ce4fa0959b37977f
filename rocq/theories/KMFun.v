(** Functions of symmetric matrices compared in the two bases of eigenvectors.  No part of the model. *)
From mathcomp Require Import all_ssreflect all_algebra.
Require Import Ring Field.
From Verif Require Import MxTac StiefelModel StiefelSpec StiefelProofs SPDSpec Eckart.
Import Order.TTheory GRing.Theory Num.Theory.
Set Implicit Arguments.
Unset Strict Implicit.
Local Open Scope ring_scope.

Section functions.
Variable R : rcfType.
Add Field kmf_field : (rcf_field R).
Variable n : nat.
Implicit Types (U V W : 'M[R]_n) (a b : 'rV[R]_n).
Definition fun_mx (phi : R -> R) V a : 'M[R]_n := V *m diag_mx (map_mx phi a) *m V^T.
Lemma orth_tr V : orthonormal V -> V *m V^T = 1%:M.
Proof. by move=> H; exact: mulmx1C. Qed.
Lemma fun_id V a : fun_mx id V a = V *m diag_mx a *m V^T.
Proof. by rewrite /fun_mx (_ : map_mx id a = a) //; apply/matrixP => i j; rewrite mxE. Qed.
Lemma fun_sym phi V a : (fun_mx phi V a)^T = fun_mx phi V a.
Proof. by rewrite /fun_mx !trmx_mul trmxK tr_diag_mx mulmxA. Qed.
Lemma fun_mul phi psi V a : orthonormal V -> fun_mx phi V a *m fun_mx psi V a = fun_mx (fun t => phi t * psi t) V a.
Proof.
move=> HV; rewrite /fun_mx !mulmxA -[_ *m V^T *m V]mulmxA HV mulmx1; congr (_ *m _); rewrite -mulmxA mulmx_diag.
by congr (_ *m diag_mx _); apply/matrixP => i j; rewrite !mxE ord1.
Qed.
Lemma inner_frame U V (X Y : 'M[R]_n) : orthonormal U -> orthonormal V ->
  inner (U^T *m X *m V) (U^T *m Y *m V) = inner X Y.
Proof.
move=> HU HV; rewrite /inner !trmx_mul trmxK !mulmxA -[_ *m U *m U^T]mulmxA (orth_tr HU) mulmx1.
by rewrite mxtrace_mulC !mulmxA (orth_tr HV) mul1mx.
Qed.

Section two.
Variables (U V : 'M[R]_n) (a b : 'rV[R]_n).
Hypotheses (HU : orthonormal U) (HV : orthonormal V).
Definition overlap := U^T *m V.
Local Notation C := overlap.
Lemma overlap_row i : \sum_j C i j ^+ 2 = 1.
Proof.
have E : C *m C^T = 1%:M by rewrite /C trmx_mul trmxK mulmxA -[_ *m V *m V^T]mulmxA (orth_tr HV) mulmx1.
have := congr1 (fun M : 'M_n => M i i) E; rewrite mxE [X in _ = X -> _]mxE eqxx mulr1n => <-.
by apply: eq_bigr => j _; rewrite [C^T j i]mxE expr2.
Qed.
Lemma overlap_col j : \sum_i C i j ^+ 2 = 1.
Proof.
have E : C^T *m C = 1%:M by rewrite /C trmx_mul trmxK mulmxA -[_ *m U *m U^T]mulmxA (orth_tr HU) mulmx1.
have := congr1 (fun M : 'M_n => M j j) E; rewrite mxE [X in _ = X -> _]mxE eqxx mulr1n => <-.
by apply: eq_bigr => i _; rewrite [C^T j i]mxE expr2.
Qed.
Lemma mixed phi i j : (U^T *m (fun_mx phi V b - fun_mx phi U a) *m V) i j = (phi (b 0 j) - phi (a 0 i)) * C i j.
Proof.
rewrite mulmxBr mulmxBl /fun_mx !mulmxA HU mul1mx -[_ *m V^T *m V]mulmxA HV mulmx1 -[_ *m U^T *m V]mulmxA -/C.
rewrite mxE [X in _ + X]mxE mul_mx_diag mul_diag_mx !mxE mulrBl; congr (_ - _); exact: mulrC.
Qed.
Lemma mixed_id i j : (U^T *m (fun_mx id V b - fun_mx id U a) *m V) i j = (b 0 j - a 0 i) * C i j.
Proof. exact: (mixed id). Qed.
(** Equal matrices have equal functions. *)
Lemma fun_eq phi : fun_mx id U a = fun_mx id V b -> fun_mx phi U a = fun_mx phi V b.
Proof.
move=> E; have M0 : U^T *m (fun_mx phi V b - fun_mx phi U a) *m V = 0.
  apply/matrixP => i j; rewrite mixed [RHS]mxE; have := mixed_id i j; rewrite E subrr mulmx0 mul0mx mxE.
  by move/esym/eqP; rewrite mulf_eq0 subr_eq0 => /orP [/eqP ->|/eqP ->]; rewrite ?subrr ?mul0r ?mulr0.
have := congr1 (fun M => U *m M *m V^T) M0; rewrite !mulmxA (orth_tr HU) mul1mx -mulmxA (orth_tr HV) mulmx1 mulmx0 mul0mx.
by move/subr0_eq.
Qed.
Lemma dist_mixed : inner (fun_mx id V b - fun_mx id U a) (fun_mx id V b - fun_mx id U a) =
  \sum_i \sum_j (b 0 j - a 0 i) ^+ 2 * C i j ^+ 2.
Proof.
rewrite -(inner_frame _ _ HU HV) inner_sum; apply: eq_bigr => i _; apply: eq_bigr => j _.
by rewrite mixed_id -exprMn expr2.
Qed.
(** The eigenvalues of a near matrix are near. *)
Lemma eig_near r j : 0 <= r -> inner (fun_mx id V b - fun_mx id U a) (fun_mx id V b - fun_mx id U a) < r ^+ 2 ->
  exists i, `|b 0 j - a 0 i| < r.
Proof.
move=> Hr H; apply/existsP; apply: contraLR H => /existsPn H; rewrite -leNgt dist_mixed exchange_big /=.
rewrite (bigD1 j) //= -[X in X <= _]addr0; apply: ler_add; last first.
  by apply: sumr_ge0 => k _; apply: sumr_ge0 => i _; rewrite mulr_ge0 ?sqr_ge0.
rewrite -[X in X <= _]mulr1 -(overlap_col j) mulr_sumr; apply: ler_sum => i _.
apply: ler_pmul; rewrite ?sqr_ge0 // -[X in _ <= X]real_normK ?num_real //.
by rewrite ler_expn2r // ?nnegrE ?normr_ge0 //; have := H i; rewrite -leNgt.
Qed.
(** The trace of a function to first order. *)
Lemma klein psi dpsi K : 0 <= K -> (forall i j, `|psi (b 0 j) - psi (a 0 i) - dpsi (a 0 i) * (b 0 j - a 0 i)| <= K * (b 0 j - a 0 i) ^+ 2) ->
  `|\tr (fun_mx psi V b) - \tr (fun_mx psi U a) - inner (fun_mx dpsi U a) (fun_mx id V b - fun_mx id U a)| <=
  K * inner (fun_mx id V b - fun_mx id U a) (fun_mx id V b - fun_mx id U a).
Proof.
move=> HK H.
have T W (c : 'rV[R]_n) : orthonormal W -> \tr (fun_mx psi W c) = \sum_j psi (c 0 j).
  move=> HW; rewrite /fun_mx mxtrace_mulC mulmxA HW mul1mx mxtrace_diag; by apply: eq_bigr => j _; rewrite mxE.
rewrite !T //.
have -> : \sum_j psi (b 0 j) = \sum_i \sum_j C i j ^+ 2 * psi (b 0 j).
  rewrite exchange_big /=; apply: eq_bigr => j _; by rewrite -mulr_suml overlap_col mul1r.
have -> : \sum_i psi (a 0 i) = \sum_i \sum_j C i j ^+ 2 * psi (a 0 i).
  apply: eq_bigr => i _; by rewrite -mulr_suml overlap_row mul1r.
rewrite -(inner_frame _ _ HU HV) inner_sum -!sumrB.
have -> : \sum_i ((\sum_j C i j ^+ 2 * psi (b 0 j) - \sum_j C i j ^+ 2 * psi (a 0 i)) -
   \sum_j (U^T *m fun_mx dpsi U a *m V) i j * (U^T *m (fun_mx id V b - fun_mx id U a) *m V) i j) =
  \sum_i \sum_j (psi (b 0 j) - psi (a 0 i) - dpsi (a 0 i) * (b 0 j - a 0 i)) * C i j ^+ 2.
  apply: eq_bigr => i _; rewrite -!sumrB; apply: eq_bigr => j _; rewrite mixed_id.
  have -> : (U^T *m fun_mx dpsi U a *m V) i j = dpsi (a 0 i) * C i j.
    by rewrite /fun_mx !mulmxA HU mul1mx -mulmxA -/C mul_diag_mx !mxE.
  by move: (C i j) => c; rng R.
rewrite dist_mixed mulr_sumr; apply: le_trans (ler_norm_sum _ _ _) _; apply: ler_sum => i _.
rewrite mulr_sumr; apply: le_trans (ler_norm_sum _ _ _) _; apply: ler_sum => j _.
by rewrite normrM mulrA [`|C i j ^+ 2|]ger0_norm ?sqr_ge0 // ler_wpmul2r ?sqr_ge0.
Qed.
(** The function to first order: its derivative in the basis of eigenvectors multiplies entries by
    divided differences. *)
Definition dk (Z : 'I_n -> 'I_n -> R) U0 (D : 'M[R]_n) : 'M[R]_n :=
  U0 *m (\matrix_(i, k) (Z i k * (U0^T *m D *m U0) i k)) *m U0^T.
Lemma cauchy_sum (p q : 'I_n -> R) : (\sum_j p j * q j) ^+ 2 <= (\sum_j p j ^+ 2) * \sum_j q j ^+ 2.
Proof.
have := @cauchy R 1 n (\row_j p j) (\row_j q j); rewrite !inner_sum !big_ord1.
by under eq_bigr do rewrite !mxE; under [X in _ <= X * _]eq_bigr do rewrite !mxE -expr2; under [X in _ <= _ * X]eq_bigr do rewrite !mxE -expr2.
Qed.
Lemma daleckii phi (Z : 'I_n -> 'I_n -> R) K (D := fun_mx id V b - fun_mx id U a)
  (E := fun_mx phi V b - fun_mx phi U a - dk Z U D) : 0 <= K ->
  (forall i k j, `|phi (b 0 j) - phi (a 0 i) - Z i k * (b 0 j - a 0 i)| <= K * (`|b 0 j - a 0 i| * `|b 0 j - a 0 k|)) ->
  inner E E <= K ^+ 2 * inner D D ^+ 2.
Proof.
move=> HK H; rewrite -(inner_frame _ _ HU HU).
have EE i k : (U^T *m E *m U) i k = \sum_j (phi (b 0 j) - phi (a 0 i) - Z i k * (b 0 j - a 0 i)) * (C i j * C k j).
  rewrite /E [_ *m (_ - dk _ _ _)]mulmxBr [(_ - _ *m dk _ _ _) *m _]mulmxBl /dk [in X in _ - X]mulmxA !mulmxA HU mul1mx -[_ *m U^T *m U]mulmxA HU mulmx1.
  have VU M : U^T *m M *m U = U^T *m M *m V *m C^T.
    by rewrite /C trmx_mul trmxK !mulmxA -[_ *m V *m V^T]mulmxA (orth_tr HV) mulmx1.
  rewrite [LHS]mxE [X in _ + X]mxE [X in _ - X]mxE !VU mxE [X in _ - _ * X]mxE mulr_sumr -sumrB.
  apply: eq_bigr => j _; rewrite mixed mixed_id [C^T j k]mxE.
  by move: (C i j) (C k j) => c1 c2; rng R.
pose rho i := \sum_j (b 0 j - a 0 i) ^+ 2 * C i j ^+ 2.
have Hrho i : 0 <= rho i by apply: sumr_ge0 => j _; rewrite mulr_ge0 ?sqr_ge0.
have B i k : (U^T *m E *m U) i k ^+ 2 <= K ^+ 2 * (rho i * rho k).
  have B1 : `|(U^T *m E *m U) i k| <= K * \sum_j (`|b 0 j - a 0 i| * `|C i j|) * (`|b 0 j - a 0 k| * `|C k j|).
    rewrite EE mulr_sumr; apply: le_trans (ler_norm_sum _ _ _) _; apply: ler_sum => j _.
    rewrite !normrM; have -> (x1 x2 x3 x4 : R) : K * (x1 * x2 * (x3 * x4)) = K * (x1 * x3) * (x2 * x4) by rng R.
    by rewrite ler_wpmul2r ?mulr_ge0 ?normr_ge0.
  rewrite -[X in X <= _]real_normK ?num_real //; apply: le_trans (_ : (K * \sum_j (`|b 0 j - a 0 i| * `|C i j|) * (`|b 0 j - a 0 k| * `|C k j|)) ^+ 2 <= _).
    by rewrite ler_expn2r // nnegrE ?normr_ge0 // (le_trans _ B1) ?normr_ge0.
  rewrite exprMn ler_wpmul2l ?sqr_ge0 //; apply: le_trans (cauchy_sum _ _) _.
  rewrite le_eqVlt; apply/orP; left; apply/eqP; congr (_ * _); apply: eq_bigr => j _; by rewrite exprMn !real_normK ?num_real.
rewrite inner_sum; have -> : inner D D = \sum_i rho i by exact: dist_mixed.
rewrite [X in _ * X]expr2 mulr_suml mulr_sumr; apply: ler_sum => i _; rewrite mulr_sumr mulr_sumr; apply: ler_sum => k _.
by rewrite -expr2.
Qed.
End two.
End functions.
