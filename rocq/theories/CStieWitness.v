(** Concrete cases for the theorems about the complex Stiefel manifold, and its storage facts. *)
From mathcomp Require Import all_ssreflect all_algebra.
From mathcomp.real_closed Require Import complex.
Require Import Ring Field.
From Verif Require Import MxTac StiefelModel StiefelSpec StiefelIntr CStieSpec CStieModel CMx CStieProofs CStieRetr CStiePolar CStieIntr CStieFacts.
Import Order.TTheory GRing.Theory Num.Theory.
Set Implicit Arguments.
Unset Strict Implicit.
Local Open Scope ring_scope.
Local Open Scope complex_scope.

Section witness.
Variable R : rcfType.
Local Notation C := R[i].
Local Notation re := (@complex.Re R).
Local Notation im := (@complex.Im R).
Add Field cwit_field : (rcf_field R).

(** Decompositions of a matrix with one column. *)
Definition cnorm1 m (A : 'M[C]_(m, 1)) : R := Num.sqrt (cinner A A).
Definition cqr1 m (A : 'M[C]_(m, 1)) : 'M[C]_(m, 1) * 'M[C]_1 := (rscale (cnorm1 A)^-1 A, ((cnorm1 A)%:C)%:M).
Definition csvd1 m (A : 'M[C]_(m, 1)) : 'M[C]_(m, 1) * 'rV[R]_1 * 'M[C]_1 :=
  (rscale (cnorm1 A)^-1 A, (\row_i cnorm1 A), 1%:M).
Lemma cgram1 m (A : 'M[C]_(m, 1)) : adj A *m A = ((cinner A A)%:C)%:M.
Proof.
rewrite [LHS]mx11_scalar; congr (_%:M); rewrite /cinner trace_mx11; apply: ceq => //=.
have := he_diag (A := adj A *m A) (0 : 'I_1); apply.
by rewrite /hermitian adjM adjK.
Qed.
Lemma cnorm1_unitary m (A : 'M[C]_(m, 1)) : 0 < cinner A A -> unitary (rscale (cnorm1 A)^-1 A).
Proof.
move=> H; rewrite /unitary /rscale adjR kmulZl kmulZr cgram1 scalerA scale_scalar_mx; congr (_%:M).
have Hn : cnorm1 A != 0 by rewrite sqrtr_eq0 -ltNge.
have E : cnorm1 A * cnorm1 A = cinner A A by rewrite -expr2 sqr_sqrtr // ltW.
by rewrite -!rmorphM -E mulrA -[_ / _ * _]mulrA mulVf // mulr1 mulVf // rmorph1.
Qed.
Lemma rscaleM m n (a b : R) (A : 'M[C]_(m, n)) : rscale a (rscale b A) = rscale (a * b) A.
Proof. by rewrite /rscale scalerA rmorphM. Qed.
Lemma cqr1_at m (A : 'M[C]_(m, 1)) : 0 < cinner A A -> cqr_at (@cqr1 m) A.
Proof.
move=> H; have Hn : cnorm1 A != 0 by rewrite sqrtr_eq0 -ltNge.
split=> /=; first by rewrite mul_mx_scalar -/(rscale (cnorm1 A) _) rscaleM divff // rscale1.
- exact: cnorm1_unitary.
- by move=> i j; rewrite !ord1.
- by move=> i; rewrite !mxE !ord1 eqxx mulr1n.
Qed.
Lemma csvd1_at m (A : 'M[C]_(m, 1)) : 0 < cinner A A -> csvd_at (@csvd1 m) A.
Proof.
move=> H; have Hn : cnorm1 A != 0 by rewrite sqrtr_eq0 -ltNge.
split=> /=.
- have -> : rdiag (\row_(i < 1) cnorm1 A) = ((cnorm1 A)%:C)%:M by apply/matrixP=> i j; rewrite !mxE !ord1 !eqxx.
  by rewrite mulmx1 mul_mx_scalar -/(rscale (cnorm1 A) _) rscaleM divff // rscale1.
- exact: cnorm1_unitary.
- by rewrite /unitary adjK adj1 mulmx1.
- by move=> i; rewrite mxE sqrtr_ge0.
Qed.
Lemma ctangent_pos m (x eta : 'M[C]_(m, 1)) : unitary x -> ctangent x eta -> 0 < cinner (x + eta) (x + eta).
Proof.
move=> Hx Ht; have E0 : cinner x eta = 0.
  rewrite -[x]mulmx1 cinner_mull; apply: herm_skew => //; exact: adj1.
rewrite cinnerDl !cinnerDr (cinnerC eta x) E0 addr0 add0r.
have -> : cinner x x = 1 by rewrite /cinner Hx trace_mx11 mxE eqxx.
by rewrite ltr_paddr ?ltr01 ?cinner_ge0.
Qed.
(** A point of the sphere of C^2 and a tangent vector with a rotation part. *)
Definition ux : 'M[C]_(1 + 1, 1) := \matrix_(a, b) (if a == 0 then 1 else 0).
Definition ue : 'M[C]_(1 + 1, 1) := \matrix_(a, b) (if a == 0 then 0 +i* 1 else 1).
Lemma ux_unitary : unitary ux.
Proof.
apply/matrixP=> i j; rewrite !ord1 !mxE !big_ord_recr big_ord0 /= !mxE /=.
by apply: ceq; rewrite /= ?(reD, imD, reM, imM, reJ, imJ) /=; rng R.
Qed.
Lemma ue_tangent : ctangent ux ue.
Proof.
apply/matrixP=> i j; rewrite !ord1 !mxE !big_ord_recr big_ord0 /= !mxE /=.
by apply: ceq; rewrite /= ?(reD, imD, reM, imM, reJ, imJ, reN, imN) /=; rng R.
Qed.
Lemma ue_neq0 : ue != 0.
Proof.
apply/eqP => /matrixP /(_ (lift ord0 ord0) ord0); rewrite !mxE /= => /eqP.
by rewrite oner_eq0.
Qed.
Lemma ue_all (t : R) : cqr_at (@cqr1 (1 + 1)) (ux + rscale t ue) /\ csvd_at (@csvd1 (1 + 1)) (ux + rscale t ue).
Proof.
have H := ctangent_pos ux_unitary (ctangentZ t ue_tangent).
by split; [exact: cqr1_at|exact: csvd1_at].
Qed.
(** A factorisation that reflects. *)
Definition uQ : 'M[C]_(1 + 1) := diag_mx (\row_i (if i == 0 then -1 else 1)).
Definition ur : 'M[C]_1 := (-1)%:M.
Lemma ux_hhr : is_chhr ux uQ ur.
Proof.
split.
- apply/matrixP; case=> [[|[|//]] ?]; case=> [[|[|//]] ?]; rewrite !mxE !big_ord_recr big_ord0 /= !mxE /=;
  apply: ceq; rewrite /= ?(reD, imD, reM, imM, reJ, imJ, reN, imN) /=; rng R.
- rewrite -(vsubmxK (adj uQ *m ux)); congr col_mx; apply/matrixP.
  + case=> [[|//] ?]; case=> [[|//] ?]; rewrite !mxE !big_ord_recr big_ord0 /= !mxE /=;
    apply: ceq; rewrite /= ?(reD, imD, reM, imM, reJ, imJ, reN, imN) /=; rng R.
  + case=> [[|//] ?]; case=> [[|//] ?]; rewrite !mxE !big_ord_recr big_ord0 /= !mxE /=;
    apply: ceq; rewrite /= ?(reD, imD, reM, imM, reJ, imJ, reN, imN) /=; rng R.
- by move=> i j; rewrite !ord1.
- by move=> i; rewrite !mxE !ord1 eqxx mulr1n /= oppr0.
Qed.
(** A Hermitian matrix that is not real, and real weights. *)
Definition uB : 'M[C]_(1 + 1) := \matrix_(a, b) (if a == b then 0 else if a == 0 then 0 +i* 1 else 0 +i* -1).
Lemma uB_hermitian : hermitian uB /\ uB != 0.
Proof.
split.
  apply/matrixP; case=> [[|[|//]] ?]; case=> [[|[|//]] ?]; rewrite !mxE /=;
  apply: ceq; rewrite /= ?(reJ, imJ) /=; rng R.
apply/eqP => /matrixP /(_ ord0 (lift ord0 ord0)); rewrite !mxE /= => -[] /eqP.
by rewrite oner_eq0.
Qed.
(** The memory of the imaginary diagonal shows. *)
Lemma cnormal_refuted : exists (junk : 'I_1 -> R) (x : 'M[C]_(1 + 1, 1)), unitary x /\
  ~ cnormal x (cnormal_extr junk x [:: 0]) /\ cnormal_extr junk x (cnormal_intr x 0) <> 0.
Proof.
exists (fun _ => 1), ux; split; first exact: ux_unitary.
have Hn u : ~ cnormal ux (cnormal_extr (fun _ => 1) ux u).
  by move=> /(cnor_extr_normal _ _ ux_unitary) /(_ 0) /eqP; rewrite oner_eq0.
split=> // E; apply: (Hn (cnormal_intr ux 0)); rewrite E.
exists 0; split; last by rewrite mulmx0.
by apply/matrixP=> i j; rewrite !mxE; apply: ceq; rewrite ?reJ ?imJ ?oppr0.
Qed.
End witness.

(** Storage. *)
Lemma statements_fine (f : fn) (n p : nat) : f <> FHessCanonical -> f <> FInvPolar -> run (statements f n p) = Fine.
Proof.
by case: f => // _ _; rewrite /run /= /product_outcome /product_numbers /owned /= !eqxx !leqnn.
Qed.
Lemma statements_overrun (f : fn) (n p : nat) : (0 < p)%N -> f = FHessCanonical \/ f = FInvPolar ->
  run (statements f n p) = Overruns.
Proof.
move=> Hp; have H : (2 * (p * p) <= 1 * (p * p))%N = false.
  by rewrite leq_pmul2r ?muln_gt0 ?Hp.
by case=> ->; rewrite /run /= /product_outcome /product_numbers /owned /= !eqxx ?leqnn H.
Qed.
