(** Complex matrices: conjugate transposes, the real inner product, triangular and unitary
    matrices.  No part of the model. *)
From mathcomp Require Import all_ssreflect all_algebra.
From mathcomp.real_closed Require Import complex.
Require Import Ring Field.
From Verif Require Import MxTac StiefelModel CStieSpec CStieModel.
Import Order.TTheory GRing.Theory Num.Theory.
Set Implicit Arguments.
Unset Strict Implicit.
Local Open Scope ring_scope.
Local Open Scope complex_scope.

(** [ring] for complex numbers. *)
Section theory.
Variable R : rcfType.
Local Notation C := R[i].
Definition kadd (x y : C) : C := x + y.
Definition kmul (x y : C) : C := x * y.
Definition kopp (x : C) : C := - x.
Definition ksub (x y : C) : C := kadd x (kopp y).
Definition k0 : C := 0.
Definition k1 : C := 1.
Lemma kring : ring_theory k0 k1 kadd kmul ksub kopp eq.
Proof. split => //=; [exact: add0r|exact: addrC|exact: addrA|exact: mul1r|exact: mulrC|exact: mulrA|exact: mulrDl|exact: subrr]. Qed.
End theory.
Ltac toC R :=
  rewrite ?mulr2n ?expr2;
  lazymatch goal with |- @eq _ ?a ?b => change (@eq (complex (Num.RealClosedField.sort R)) a b) end;
  repeat match goal with
  | |- context [@GRing.add ?T ?a ?b] => change (@GRing.add T a b) with (@kadd R a b)
  | |- context [@GRing.mul ?T ?a ?b] => change (@GRing.mul T a b) with (@kmul R a b)
  | |- context [@GRing.opp ?T ?a] => change (@GRing.opp T a) with (@kopp R a)
  | |- context [@GRing.one ?T] => change (@GRing.one T) with (k1 R)
  | |- context [@GRing.zero ?T] => change (@GRing.zero T) with (k0 R)
  end;
  repeat match goal with
  | |- context [@kadd R ?a (@kopp R ?b)] => change (@kadd R a (@kopp R b)) with (@ksub R a b)
  end.
Ltac krng R := entries; toC R; ring.

Section complex_numbers.
Variable R : rcfType.
Local Notation C := R[i].
Local Notation re := (@complex.Re R).
Local Notation im := (@complex.Im R).
Add Field cnum_field : (rcf_field R).
Lemma reD (x y : C) : re (x + y) = re x + re y. Proof. exact: raddfD. Qed.
Lemma imD (x y : C) : im (x + y) = im x + im y. Proof. exact: raddfD. Qed.
Lemma reN (x : C) : re (- x) = - re x. Proof. exact: raddfN. Qed.
Lemma imN (x : C) : im (- x) = - im x. Proof. exact: raddfN. Qed.
Lemma reM (x y : C) : re (x * y) = re x * re y - im x * im y. Proof. by case: x; case: y. Qed.
Lemma imM (x y : C) : im (x * y) = re x * im y + im x * re y. Proof. by case: x; case: y. Qed.
Lemma reJ (x : C) : re (conjc x) = re x. Proof. by case: x. Qed.
Lemma imJ (x : C) : im (conjc x) = - im x. Proof. by case: x. Qed.
Lemma reC (a : R) : re a%:C = a. Proof. by []. Qed.
Lemma imC (a : R) : im a%:C = 0. Proof. by []. Qed.
Lemma ceq (x y : C) : re x = re y -> im x = im y -> x = y.
Proof. by case: x => a b; case: y => c d /= -> ->. Qed.
Lemma re_sum I (s : seq I) (P : pred I) (F : I -> C) : re (\sum_(i <- s | P i) F i) = \sum_(i <- s | P i) re (F i).
Proof. exact: raddf_sum. Qed.
Lemma im_sum I (s : seq I) (P : pred I) (F : I -> C) : im (\sum_(i <- s | P i) F i) = \sum_(i <- s | P i) im (F i).
Proof. exact: raddf_sum. Qed.
Lemma cjD (x y : C) : conjc (x + y) = conjc x + conjc y. Proof. exact: rmorphD. Qed.
Lemma cjM (x y : C) : conjc (x * y) = conjc x * conjc y. Proof. exact: rmorphM. Qed.
Lemma cjN (x : C) : conjc (- x) = - conjc x. Proof. exact: rmorphN. Qed.
Lemma cj_sum I (s : seq I) (P : pred I) (F : I -> C) : conjc (\sum_(i <- s | P i) F i) = \sum_(i <- s | P i) conjc (F i).
Proof. exact: rmorph_sum. Qed.
Lemma cjR (a : R) : conjc a%:C = a%:C.
Proof. by apply: ceq; rewrite ?reJ ?imJ //= oppr0. Qed.
Lemma rcD (a b : R) : (a + b)%:C = a%:C + b%:C. Proof. exact: rmorphD. Qed.
Lemma rcM (a b : R) : (a * b)%:C = a%:C * b%:C. Proof. exact: rmorphM. Qed.
Lemma rcN (a : R) : (- a)%:C = - a%:C. Proof. exact: rmorphN. Qed.
Lemma rcX (a : R) n : (a ^+ n)%:C = a%:C ^+ n. Proof. exact: rmorphX. Qed.
Lemma mulcJ (x : C) : conjc x * x = (re x ^+ 2 + im x ^+ 2)%:C.
Proof. by case: x => a b; apply: ceq; rewrite !(reM, imM, reJ, imJ) /=; rng R. Qed.
Lemma real_is (x : C) : im x = 0 -> x = (re x)%:C.
Proof. by case: x => a b /= ->. Qed.
Lemma chalf2 : (half R)%:C + (half R)%:C = 1.
Proof. by rewrite -rcD; have -> : half R + half R = 1 by rewrite /half; toR R; field; exact (@two_neq0 R).  Qed.
End complex_numbers.

Section adjoints.
Variable R : rcfType.
Local Notation C := R[i].
Local Notation re := (@complex.Re R).
Local Notation im := (@complex.Im R).
Add Field adj_field : (rcf_field R).
Add Ring adj_ring : (kring R).
Section mn.
Variables m n q : nat.
Implicit Types A B D : 'M[C]_(m, n).
Lemma adjD A B : adj (A + B) = adj A + adj B.
Proof. by apply/matrixP => i j; rewrite !mxE cjD. Qed.
Lemma adjN A : adj (- A) = - adj A.
Proof. by apply/matrixP => i j; rewrite !mxE cjN. Qed.
Lemma adjB A B : adj (A - B) = adj A - adj B.
Proof. by rewrite adjD adjN. Qed.
Lemma adjZ a A : adj (a *: A) = conjc a *: adj A.
Proof. by apply/matrixP => i j; rewrite !mxE cjM. Qed.
Lemma adjR (a : R) A : adj (a%:C *: A) = a%:C *: adj A.
Proof. by rewrite adjZ cjR. Qed.
Lemma adjM A (B : 'M[C]_(n, q)) : adj (A *m B) = adj B *m adj A.
Proof. by apply/matrixP => i j; rewrite !mxE cj_sum; apply: eq_bigr => l _; rewrite !mxE cjM mulrC. Qed.
Lemma adjK A : adj (adj A) = A.
Proof. by apply/matrixP => i j; rewrite !mxE conjcK. Qed.
Lemma adj0 : adj (0 : 'M[C]_(m, n)) = 0.
Proof. by apply/matrixP => i j; rewrite !mxE conjc0. Qed.
Lemma kmulZl a A (B : 'M[C]_(n, q)) : (a *: A) *m B = a *: (A *m B).
Proof. by rewrite -scalemxAl. Qed.
Lemma kmulZr a A (B : 'M[C]_(n, q)) : A *m (a *: B) = a *: (A *m B).
Proof. by rewrite -scalemxAr. Qed.
End mn.
Lemma adj1 n : adj (1%:M : 'M[C]_n) = 1%:M.
Proof. by apply/matrixP => i j; rewrite !mxE eq_sym; case: eqP; rewrite ?conjc1 ?conjc0. Qed.
Lemma adj_inj m n : injective (@adj R m n).
Proof. by move=> A B E; rewrite -[A]adjK E adjK. Qed.
Lemma adj_trace n (A : 'M[C]_n) : \tr (adj A) = conjc (\tr A).
Proof. by rewrite /mxtrace cj_sum; apply: eq_bigr => i _; rewrite mxE. Qed.
Lemma adj_rdiag n (S : 'rV[R]_n) : adj (rdiag S) = rdiag S.
Proof.
apply/matrixP => i j; rewrite !mxE eq_sym; case: eqP => [->|_]; last by rewrite mulr0n conjc0.
by rewrite mulr1n cjR.
Qed.
Lemma adj_unit n (A : 'M[C]_n) : A \in unitmx -> adj A \in unitmx /\ invmx (adj A) = adj (invmx A).
Proof.
move=> H; have E : adj A *m adj (invmx A) = 1%:M by rewrite -adjM mulVmx // adj1.
have [U _] := mulmx1_unit E; split=> //.
by rewrite -[RHS]mul1mx -(mulVmx U) -mulmxA E mulmx1.
Qed.
Lemma adj_col_mx m1 m2 n (A : 'M[C]_(m1, n)) (B : 'M[C]_(m2, n)) : adj (col_mx A B) = row_mx (adj A) (adj B).
Proof. by apply/matrixP => i j; rewrite !mxE; case: (fintype.split _) => l; rewrite mxE. Qed.
Lemma adj_row_mx m n1 n2 (A : 'M[C]_(m, n1)) (B : 'M[C]_(m, n2)) : adj (row_mx A B) = col_mx (adj A) (adj B).
Proof. by apply/matrixP => i j; rewrite !mxE; case: (fintype.split _) => l; rewrite mxE. Qed.
End adjoints.
Ltac kmxz := rewrite ?(adjD, adjN, adjR, adjM, adjK, adj1, adj0, mulmxDl, mulmxDr,
  mulNmx, mulmxN, mulmxA, mul1mx, mulmx1, mul0mx, mulmx0, kmulZl, kmulZr).

Section inner.
Variable R : rcfType.
Local Notation C := R[i].
Local Notation re := (@complex.Re R).
Local Notation im := (@complex.Im R).
Add Field inner_field : (rcf_field R).
Section mn.
Variables m n : nat.
Implicit Types A B D : 'M[C]_(m, n).
Lemma cdotE A B : cdot A B = cinner A B.
Proof.
rewrite /cdot /cinner /mxtrace re_sum exchange_big /=; apply: eq_bigr => j _.
rewrite mxE re_sum; apply: eq_bigr => i _; rewrite mxE reM reJ imJ.
by rng R.
Qed.
Lemma cinnerC A B : cinner A B = cinner B A.
Proof. by rewrite -!cdotE; apply: eq_bigr => i _; apply: eq_bigr => j _; rng R. Qed.
Lemma cinnerDl A B D : cinner (A + B) D = cinner A D + cinner B D.
Proof. by rewrite /cinner adjD mulmxDl mxtraceD reD. Qed.
Lemma cinnerDr A B D : cinner A (B + D) = cinner A B + cinner A D.
Proof. by rewrite cinnerC cinnerDl !(cinnerC A). Qed.
Lemma cinnerNl A B : cinner (- A) B = - cinner A B.
Proof. by rewrite /cinner adjN mulNmx linearN /= reN. Qed.
Lemma cinnerNr A B : cinner A (- B) = - cinner A B.
Proof. by rewrite cinnerC cinnerNl cinnerC. Qed.
Lemma cinnerBl A B D : cinner (A - B) D = cinner A D - cinner B D.
Proof. by rewrite cinnerDl cinnerNl. Qed.
Lemma cinnerBr A B D : cinner A (B - D) = cinner A B - cinner A D.
Proof. by rewrite cinnerDr cinnerNr. Qed.
Lemma cinnerZl (a : R) A B : cinner (a%:C *: A) B = a * cinner A B.
Proof. by rewrite /cinner adjR kmulZl linearZ /= reM /= mul0r subr0. Qed.
Lemma cinnerZr (a : R) A B : cinner A (a%:C *: B) = a * cinner A B.
Proof. by rewrite cinnerC cinnerZl cinnerC. Qed.
Lemma cinner0l A : cinner 0 A = 0.
Proof. by rewrite /cinner adj0 mul0mx mxtrace0. Qed.
Lemma cinner0r A : cinner A 0 = 0.
Proof. by rewrite cinnerC cinner0l. Qed.
Lemma sq2_ge0 (x : C) : 0 <= re x * re x + im x * im x.
Proof. by rewrite -!expr2 addr_ge0 ?sqr_ge0. Qed.
Lemma sq2_eq0 (x : C) : re x * re x + im x * im x = 0 -> x = 0.
Proof.
rewrite -!expr2 => /eqP; rewrite paddr_eq0 ?sqr_ge0 // !sqrf_eq0 => /andP [/eqP H1 /eqP H2].
exact: ceq.
Qed.
Lemma cinner_ge0 A : 0 <= cinner A A.
Proof. by rewrite -cdotE /cdot; apply: sumr_ge0 => i _; apply: sumr_ge0 => j _; apply: sq2_ge0. Qed.
Lemma cinner_eq0 A : cinner A A = 0 -> A = 0.
Proof.
rewrite -cdotE /cdot => H; apply/matrixP => i j; rewrite mxE.
have H1 : (\sum_j (re (A i j) * re (A i j) + im (A i j) * im (A i j))) = 0.
  apply/eqP; move: H => /eqP; rewrite psumr_eq0; last by move=> a _; apply: sumr_ge0 => b _; apply: sq2_ge0.
  by move=> /allP /(_ i (mem_index_enum i)).
move: H1 => /eqP; rewrite psumr_eq0; last by move=> b _; apply: sq2_ge0.
by move=> /allP /(_ j (mem_index_enum j)) /= /eqP /sq2_eq0.
Qed.
End mn.
Lemma cinner_adj m n (A B : 'M[C]_(m, n)) : cinner (adj A) (adj B) = cinner A B.
Proof. by rewrite /cinner adjK mxtrace_mulC -[X in re X]conjcK -adj_trace adjM adjK reJ. Qed.
Lemma cinner_mull m n q (A : 'M[C]_(m, n)) (B : 'M[C]_(n, q)) (D : 'M[C]_(m, q)) :
  cinner (A *m B) D = cinner B (adj A *m D).
Proof. by rewrite /cinner adjM mulmxA. Qed.
Lemma cinner_mulr m n q (A : 'M[C]_(m, n)) (B : 'M[C]_(n, q)) (D : 'M[C]_(m, q)) :
  cinner (A *m B) D = cinner A (D *m adj B).
Proof. by rewrite -cinner_adj adjM cinner_mull adjK -cinner_adj adjM !adjK. Qed.
Lemma herm_skew n (S W : 'M[C]_n) : hermitian S -> skew_hermitian W -> cinner S W = 0.
Proof.
move=> HS HW; have H : cinner S W = - cinner S W by rewrite -{1}cinner_adj HS HW cinnerNr.
have : cinner S W *+ 2 = 0 by rewrite mulr2n {1}H addNr.
by move/eqP; rewrite mulrn_eq0 /= => /eqP.
Qed.
Lemma herm_partH n (A : 'M[C]_n) : hermitian (herm_part A).
Proof. by rewrite /hermitian /herm_part /rscale adjR adjD adjK addrC. Qed.
Lemma herm_part_id n (A : 'M[C]_n) : hermitian A -> herm_part A = A.
Proof. by rewrite /hermitian /herm_part /rscale => ->; rewrite scalerDr -scalerDl chalf2 scale1r. Qed.
Lemma herm_part_skew n (A : 'M[C]_n) : skew_hermitian A -> herm_part A = 0.
Proof. by rewrite /skew_hermitian /herm_part /rscale => ->; rewrite subrr scaler0. Qed.
Lemma herm_part_anti n (A : 'M[C]_n) : skew_hermitian (A - herm_part A).
Proof.
rewrite /skew_hermitian adjB (herm_partH A : adj _ = _) opprB.
have E : herm_part A + herm_part A = A + adj A by rewrite /herm_part /rscale -scalerDl chalf2 scale1r.
apply/eqP; rewrite subr_eq addrAC E.
by rewrite addrAC subrr add0r.
Qed.
Lemma herm_partD n (A B : 'M[C]_n) : herm_part (A + B) = herm_part A + herm_part B.
Proof. by rewrite /herm_part /rscale -scalerDr adjD addrACA. Qed.
Lemma herm_partN n (A : 'M[C]_n) : herm_part (- A) = - herm_part A.
Proof. by rewrite /herm_part /rscale -scalerN adjN -opprD. Qed.
Lemma herm_partZ n (a : R) (A : 'M[C]_n) : herm_part (a%:C *: A) = a%:C *: herm_part A.
Proof. by rewrite /herm_part /rscale adjR -scalerDr !scalerA mulrC. Qed.
Lemma herm_partA n (A : 'M[C]_n) : herm_part (adj A) = herm_part A.
Proof. by rewrite /herm_part adjK addrC. Qed.
Lemma unitary_r m n q (x : 'M[C]_(m, n)) (A : 'M[C]_(q, n)) : unitary x -> A *m adj x *m x = A.
Proof. by move=> H; rewrite -mulmxA H mulmx1. Qed.
Lemma hermitianR n (a : R) (A : 'M[C]_n) : hermitian A -> hermitian (a%:C *: A).
Proof. by rewrite /hermitian adjR => ->. Qed.
Lemma hermitianD n (A B : 'M[C]_n) : hermitian A -> hermitian B -> hermitian (A + B).
Proof. by rewrite /hermitian adjD => -> ->. Qed.
Lemma skewD n (A B : 'M[C]_n) : skew_hermitian A -> skew_hermitian B -> skew_hermitian (A + B).
Proof. by rewrite /skew_hermitian adjD opprD => -> ->. Qed.
Lemma skewN n (A : 'M[C]_n) : skew_hermitian A -> skew_hermitian (- A).
Proof. by rewrite /skew_hermitian adjN => ->. Qed.
Lemma cinner_pyth m n (A B : 'M[C]_(m, n)) : cinner A B = 0 -> cinner A A <= cinner (A + B) (A + B).
Proof. by move=> H; rewrite !cinnerDl !cinnerDr (cinnerC B A) H addr0 add0r ler_addl cinner_ge0. Qed.
End inner.
