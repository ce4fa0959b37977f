(** The Frobenius norm and functions of matrices near a matrix.  No part of the model. *)
From mathcomp Require Import all_ssreflect all_algebra.
Require Import Ring Field.
From Verif Require Import MxTac StiefelModel StiefelSpec StiefelProofs SPDSpec SPDProofs Eckart Decomp KMSpec KMFun.
Import Order.TTheory GRing.Theory Num.Theory.
Set Implicit Arguments.
Unset Strict Implicit.
Local Open Scope ring_scope.

Section norm.
Variable R : rcfType.
Add Field kmn_field : (rcf_field R).
Lemma nrm_ge0 m n (A : 'M[R]_(m, n)) : 0 <= nrm A.
Proof. exact: sqrtr_ge0. Qed.
Lemma nrm_sq m n (A : 'M[R]_(m, n)) : nrm A ^+ 2 = inner A A.
Proof. by rewrite /nrm sqr_sqrtr // inner_ge0. Qed.
Lemma nrm_le m n (A : 'M[R]_(m, n)) c : 0 <= c -> inner A A <= c ^+ 2 -> nrm A <= c.
Proof. by move=> Hc H; rewrite -(@ler_pexpn2r _ 2) ?nnegrE ?nrm_ge0 // nrm_sq. Qed.
Lemma nrm0 m n : nrm (0 : 'M[R]_(m, n)) = 0.
Proof. by rewrite /nrm inner0l sqrtr0. Qed.
Lemma nrmN m n (A : 'M[R]_(m, n)) : nrm (- A) = nrm A.
Proof. by rewrite /nrm innerNl innerNr opprK. Qed.
Lemma nrm_tr n (A : 'M[R]_n) : nrm A^T = nrm A.
Proof. by rewrite /nrm inner_tr. Qed.
Lemma inner_nrm m n (A B : 'M[R]_(m, n)) : `|inner A B| <= nrm A * nrm B.
Proof.
rewrite -(@ler_pexpn2r _ 2) ?nnegrE ?normr_ge0 ?mulr_ge0 ?nrm_ge0 // real_normK ?num_real //.
by rewrite exprMn !nrm_sq; exact: cauchy.
Qed.
Lemma nrmD m n (A B : 'M[R]_(m, n)) : nrm (A + B) <= nrm A + nrm B.
Proof.
apply: nrm_le; first by rewrite addr_ge0 ?nrm_ge0.
rewrite innerDl !innerDr [inner B A]innerC sqrrD !nrm_sq.
have H := le_trans (ler_norm _) (inner_nrm A B).
by rewrite !addrA ler_add2r -!addrA ler_add2l ?mulr2n ler_add.
Qed.
Lemma nrmB m n (A B : 'M[R]_(m, n)) : nrm (A - B) <= nrm A + nrm B.
Proof. by rewrite -(nrmN B) nrmD. Qed.
Lemma nrmZ m n c (A : 'M[R]_(m, n)) : nrm (c *: A) = `|c| * nrm A.
Proof. by rewrite /nrm innerZl innerZr mulrA -expr2 sqrtrM ?sqr_ge0 // sqrtr_sqr. Qed.
Lemma inner_mul_le m n q (A : 'M[R]_(m, n)) (B : 'M[R]_(n, q)) : inner (A *m B) (A *m B) <= inner A A * inner B B.
Proof.
rewrite !inner_sum; have -> : \sum_i \sum_j B i j * B i j = \sum_j \sum_i B i j * B i j by rewrite exchange_big.
rewrite mulr_suml; apply: ler_sum => i _; rewrite mulr_sumr; apply: ler_sum => j _.
rewrite mxE -expr2; apply: le_trans (cauchy_sum _ _) _.
by rewrite le_eqVlt; apply/orP; left; apply/eqP; congr (_ * _); apply: eq_bigr => k _; rewrite expr2.
Qed.
Lemma nrmM m n q (A : 'M[R]_(m, n)) (B : 'M[R]_(n, q)) : nrm (A *m B) <= nrm A * nrm B.
Proof. by apply: nrm_le; rewrite ?mulr_ge0 ?nrm_ge0 // exprMn !nrm_sq inner_mul_le. Qed.
Lemma nrm_sum m n (I : eqType) (s : seq I) (F : I -> 'M[R]_(m, n)) : nrm (\sum_(i <- s) F i) <= \sum_(i <- s) nrm (F i).
Proof.
elim: s => [|i s IH]; first by rewrite !big_nil nrm0.
by rewrite !big_cons; apply: le_trans (nrmD _ _) _; rewrite ler_add2l.
Qed.
Lemma nrm_hadamard n (Z H : 'M[R]_n) : nrm (\matrix_(i, j) (Z i j * H i j)) <= nrm Z * nrm H.
Proof.
apply: nrm_le; rewrite ?mulr_ge0 ?nrm_ge0 // exprMn !nrm_sq !inner_sum.
have Hz i j : Z i j * Z i j <= \sum_i \sum_j Z i j * Z i j.
  rewrite (bigD1 i) //= (bigD1 j) //= -addrA ler_addl addr_ge0 //.
    by apply: sumr_ge0 => k _; rewrite -expr2 sqr_ge0.
  by apply: sumr_ge0 => l _; apply: sumr_ge0 => k _; rewrite -expr2 sqr_ge0.
rewrite mulr_sumr; apply: ler_sum => i _; rewrite mulr_sumr; apply: ler_sum => j _.
rewrite !mxE mulrACA ler_wpmul2r //; by rewrite -expr2 sqr_ge0.
Qed.
Lemma frame_nrm n (U V X : 'M[R]_n) : orthonormal U -> orthonormal V -> nrm (U *m X *m V^T) = nrm X.
Proof.
move=> HU HV; rewrite /nrm -[in LHS](inner_frame _ _ HU HV) !mulmxA HU mul1mx -mulmxA HV mulmx1 //.
Qed.

(** Positive lower bound of finitely many positive numbers. *)
Lemma pos_bound n (a : 'rV[R]_n) : (forall i, 0 < a 0 i) -> exists2 lo, 0 < lo & forall i, lo <= a 0 i.
Proof.
move=> H.
suff G (s : seq 'I_n) : exists2 lo, 0 < lo & forall i, i \in s -> lo <= a 0 i.
  by have [lo H1 H2] := G (enum 'I_n); exists lo => // i; apply: H2; rewrite mem_enum.
elim: s => [|i s [lo H1 H2]]; first by exists 1 => //; exact: ltr01.
exists (Num.min lo (a 0 i)); first by rewrite lt_minr H1 H.
move=> j; rewrite in_cons => /orP [/eqP ->|Hj]; first by rewrite le_minl lexx orbT.
by rewrite le_minl H2.
Qed.
Lemma eig_posdef n (V : 'M[R]_n) (a : 'rV[R]_n) : orthonormal V -> (forall i, 0 < a 0 i) -> posdef (fun_mx id V a).
Proof.
move=> HV Ha; split; first exact: fun_sym.
move=> v Hv; rewrite fun_id.
have -> : v^T *m (V *m diag_mx a *m V^T) *m v = (V^T *m v)^T *m diag_mx a *m (V^T *m v).
  by rewrite trmx_mul trmxK !mulmxA.
have Hw : V^T *m v != 0.
  apply: contra Hv => /eqP E; apply/eqP; by rewrite -[v]mul1mx -(orth_tr HV) -mulmxA E mulmx0.
move: (V^T *m v) Hw => w Hw; rewrite mxE.
under eq_bigr do rewrite mul_mx_diag !mxE mulrAC.
have Hge i : 0 <= w i 0 * w i 0 * a 0 i by rewrite mulr_ge0 -?expr2 ?sqr_ge0 // ltW.
rewrite lt_neqAle sumr_ge0 ?andbT; last by move=> i _; exact: Hge.
apply: contra Hw; rewrite eq_sym psumr_eq0 // => /allP H; apply/eqP/matrixP => i j; rewrite ord1 [RHS]mxE.
have := H i (mem_index_enum _); rewrite mulf_eq0 [a 0 i == 0]gt_eqF // orbF mulf_eq0 orbb => /eqP //.
Qed.
(** Decompositions of near matrices. *)
Lemma near_lo n (U V : 'M[R]_n) (a b : 'rV[R]_n) lo : orthonormal U -> orthonormal V -> 0 < lo -> (forall i, lo + lo <= a 0 i) ->
  nrm (fun_mx id V b - fun_mx id U a) < lo -> forall j, lo <= b 0 j.
Proof.
move=> HU HV Hlo Ha H j; have Hl := ltW Hlo.
have [|i Hi] := @eig_near R n U V a b HU HV lo j Hl.
  by rewrite -nrm_sq ltr_pexpn2r // ?nnegrE ?nrm_ge0.
have Hs : a 0 i - b 0 j <= lo by apply: le_trans (ler_norm _) _; rewrite distrC ltW.
have := Ha i; rewrite -ler_subr_addr => /le_trans; apply.
by rewrite ler_subl_addr -ler_subl_addl.
Qed.
End norm.
