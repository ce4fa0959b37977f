(** Norms of products of complex matrices, matrices near one of full rank, and the best approximation
    by a matrix of bounded rank (Eckart and Young).  No part of the model. *)
From mathcomp Require Import all_ssreflect all_algebra.
From mathcomp.real_closed Require Import complex.
Require Import Ring Field.
From Verif Require Import MxTac StiefelModel CStieSpec CStieModel CMx CStieProofs CStiePolar CFrSpec CDecomp Eckart.
Import Order.TTheory GRing.Theory Num.Theory.
Set Implicit Arguments.
Unset Strict Implicit.
Local Open Scope ring_scope.
Local Open Scope complex_scope.

Section eckart.
Variable R : rcfType.
Local Notation C := R[i].
Local Notation re := (@complex.Re R).
Local Notation im := (@complex.Im R).
Add Field ceck_field : (rcf_field R).
Add Ring ceck_field_r : (kring R).

Lemma cauchy m n (A B : 'M[C]_(m, n)) : cinner A B ^+ 2 <= cinner A A * cinner B B.
Proof.
case: (altP (cinner B B =P 0)) => [E|HB].
  by rewrite (cinner_eq0 E) cinner0r expr2 mul0r cinner0r mulr0.
have PB : 0 < cinner B B by rewrite lt_neqAle eq_sym HB cinner_ge0.
have := cinner_ge0 ((cinner B B)%:C *: A - (cinner A B)%:C *: B).
rewrite cinnerBl !cinnerBr !cinnerZl !cinnerZr [cinner B A]cinnerC.
have -> : cinner B B * (cinner B B * cinner A A) - cinner B B * (cinner A B * cinner A B) -
   (cinner A B * (cinner B B * cinner A B) - cinner A B * (cinner A B * cinner B B)) =
   cinner B B * (cinner A A * cinner B B - cinner A B ^+ 2) by move: (cinner B B) (cinner A B) (cinner A A) => a b c; rng R.
by rewrite pmulr_rge0 // subr_ge0.
Qed.
Definition sqn (x : C) : R := re x ^+ 2 + im x ^+ 2.
Lemma sqn_ge0 x : 0 <= sqn x.
Proof. by rewrite addr_ge0 ?sqr_ge0. Qed.
Lemma sqn0 : sqn 0 = 0.
Proof. by rewrite /sqn /= expr0n /= addr0. Qed.
Lemma sqnR (a : R) x : sqn (x * a%:C) = a ^+ 2 * sqn x.
Proof. by rewrite /sqn reM imM /=; rng R. Qed.
Lemma inner_sum m n (A : 'M[C]_(m, n)) : cinner A A = \sum_i \sum_j sqn (A i j).
Proof. by rewrite -cdotE. Qed.
Lemma outer m n (x : 'cV[C]_m) (v : 'cV[C]_n) : cinner (x *m adj v) (x *m adj v) = cinner x x * cinner v v.
Proof. by rewrite cinner_mull mulmxA gram1 mul_scalar_mx cinnerZr cinner_adj. Qed.
Lemma norm_apply m n (A : 'M[C]_(m, n)) (v : 'cV[C]_n) :
  cinner (A *m v) (A *m v) <= cinner A A * cinner v v.
Proof.
have E : cinner A ((A *m v) *m adj v) = cinner (A *m v) (A *m v) by rewrite [RHS]cinner_mulr.
have := cauchy A ((A *m v) *m adj v); rewrite E outer mulrCA expr2.
have := cinner_ge0 (A *m v); rewrite le_eqVlt => /orP [/eqP <-|H]; first by rewrite mulr_ge0 ?cinner_ge0.
by rewrite ler_pmul2l.
Qed.
(** Matrices near one of full rank have full rank. *)
Lemma full_near m n (x K : 'M[C]_(m, n)) : adj K *m x = 1%:M -> forall d, cinner d d * cinner K K < 1 -> cfull_rank (x + d).
Proof.
move=> E d Hd v Hv; apply/eqP; apply: contraT => Hn.
have Pv : 0 < cinner v v by rewrite lt_def cinner_ge0 andbT; apply: contra Hn => /eqP /cinner_eq0 ->.
have Ev : v = - (adj K *m (d *m v)).
  have := congr1 (mulmx (adj K)) Hv; rewrite mulmx0 mulmxDl mulmxDr mulmxA E mul1mx => /eqP.
  by rewrite addr_eq0 => /eqP.
have H1 : cinner v v <= cinner K K * (cinner d d * cinner v v).
  rewrite {1 2}Ev cinnerNl cinnerNr opprK; apply: le_trans (norm_apply _ _) _; rewrite cinner_adj.
  by apply: ler_wpmul2l (cinner_ge0 _) _ _ _; exact: norm_apply.
have := lt_le_trans (_ : cinner d d * cinner K K * cinner v v < cinner v v) H1.
rewrite -[X in _ < X -> _]mul1r ltr_pmul2r // => /(_ Hd).
by rewrite mulrA [cinner K K * _]mulrC ltxx.
Qed.

(** A frame loses at least as much as the projection on it. *)
Lemma frame_bound m n r (Q : 'M[C]_(m, r)) (A : 'M[C]_(m, n)) (X : 'M[C]_(r, n)) : unitary Q ->
  cinner A A - cinner (adj Q *m A) (adj Q *m A) <= cinner (A - Q *m X) (A - Q *m X).
Proof.
move=> HQ; rewrite cinnerBl !cinnerBr.
have -> : cinner A (Q *m X) = cinner (adj Q *m A) X by rewrite [in RHS]cinner_mull adjK.
have -> : cinner (Q *m X) A = cinner (adj Q *m A) X by rewrite cinnerC [in RHS]cinner_mull adjK.
have -> : cinner (Q *m X) (Q *m X) = cinner X X by rewrite cinner_mull mulmxA HQ mul1mx.
have := cinner_ge0 (adj Q *m A - X); rewrite cinnerBl !cinnerBr [cinner X (adj Q *m A)]cinnerC.
move: (cinner A A) (cinner (adj Q *m A) (adj Q *m A)) (cinner (adj Q *m A) X) (cinner X X) => a b c d H.
rewrite -subr_ge0; suff -> : a - c - (c - d) - (a - b) = b - c - (c - d) by []; rng R.
Qed.
Lemma frame_le m n r (Q : 'M[C]_(m, r)) (A : 'M[C]_(m, n)) : unitary Q ->
  cinner (adj Q *m A) (adj Q *m A) <= cinner A A.
Proof.
move=> HQ; rewrite -subr_ge0; have := frame_bound A (adj Q *m A) HQ.
rewrite [in X in _ <= X]cinnerBl !cinnerBr.
have -> : cinner (Q *m (adj Q *m A)) (Q *m (adj Q *m A)) = cinner A (Q *m (adj Q *m A)).
  by rewrite cinner_mull [adj Q *m (Q *m _)]mulmxA HQ mul1mx cinner_mull adjK.
have := cinner_ge0 (A - Q *m (adj Q *m A)).
rewrite cinnerBl !cinnerBr.
have -> : cinner (Q *m (adj Q *m A)) (Q *m (adj Q *m A)) = cinner A (Q *m (adj Q *m A)).
  by rewrite cinner_mull [adj Q *m (Q *m _)]mulmxA HQ mul1mx cinner_mull adjK.
have -> : cinner (Q *m (adj Q *m A)) A = cinner (adj Q *m A) (adj Q *m A) by rewrite cinner_mull.
have -> : cinner A (Q *m (adj Q *m A)) = cinner (adj Q *m A) (adj Q *m A) by rewrite [LHS]cinnerC cinner_mull.
by rewrite subrr subr0.
Qed.

Section best.
Variables (m n r k : nat) (U : 'M[C]_(m, r + k)) (V : 'M[C]_(n, r + k)) (s : 'rV[R]_(r + k)).
Hypotheses (HU : unitary U) (HV : unitary V) (H0 : forall i, 0 <= s 0 i).
Hypothesis Hs : forall i j : 'I_(r + k), (i <= j)%N -> s 0 j <= s 0 i.
Lemma usv_inner q (W : 'M[C]_(q, r + k)) (d : 'rV[R]_(r + k)) :
  cinner (W *m rdiag d *m (adj V)) (W *m rdiag d *m (adj V)) = \sum_j d 0 j ^+ 2 * \sum_i sqn (W i j).
Proof.
rewrite cinner_mulr adjK -[_ *m (adj V) *m V]mulmxA HV mulmx1 inner_sum exchange_big /=; apply: eq_bigr => j _.
by rewrite mulr_sumr; apply: eq_bigr => i _; rewrite mul_mx_diag [X in sqn X]mxE [X in _ * X]mxE sqnR.
Qed.
Lemma col_one (j : 'I_(r + k)) : \sum_i sqn (U i j) = 1.
Proof.
have := congr1 (fun M : 'M_(r + k) => re (M j j)) HU; rewrite mxE [X in _ = re X -> _]mxE eqxx mulr1n re_sum /= => <-.
by apply: eq_bigr => i _; rewrite !mxE mulcJ.
Qed.
Lemma truncate : U *m rdiag s *m (adj V) - lsubmx U *m rdiag (lsubmx s) *m (adj (lsubmx V)) =
  U *m rdiag (row_mx 0 (rsubmx s)) *m (adj V).
Proof.
apply/matrixP => i j; rewrite !mxE !big_split_ord /=.
rewrite (eq_bigr (fun l => (lsubmx U *m rdiag (lsubmx s)) i l * (adj (lsubmx V)) l j)); last first.
  by move=> l _; rewrite !mul_mx_diag !mxE.
rewrite addrAC subrr add0r [X in _ = X + _]big1 ?add0r; last first.
  by move=> l _; rewrite mul_mx_diag !mxE (unsplitK (inl l)) mxE mulr0 mul0r.
by apply: eq_bigr => l _; rewrite !mul_mx_diag !mxE (unsplitK (inr l)) mxE.
Qed.
Lemma eckart_young (Z1 : 'M[C]_(m, r)) (Z2 : 'M[C]_(n, r)) (A := U *m rdiag s *m (adj V))
  (Y := lsubmx U *m rdiag (lsubmx s) *m (adj (lsubmx V))) : (r <= m)%N ->
  cinner (A - Y) (A - Y) <= cinner (A - Z1 *m (adj Z2)) (A - Z1 *m (adj Z2)).
Proof.
move=> Hm; rewrite /Y /A truncate -/A usv_inner.
have [Q [q [E HQ _ _]]] := qr_exists Z1 Hm; rewrite E -mulmxA.
apply: le_trans (frame_bound A (q *m (adj Z2)) HQ).
have -> : adj Q *m A = (adj Q *m U) *m rdiag s *m (adj V) by rewrite /A !mulmxA.
rewrite /A !usv_inner ler_subr_addr.
pose c j := \sum_i sqn ((adj Q *m U) i j).
have Hc j : 0 <= c j <= 1.
  rewrite sumr_ge0 /=; last by move=> i _; exact: sqn_ge0.
  have := frame_le (col j U) HQ; have -> : adj Q *m col j U = col j (adj Q *m U) by rewrite !colE mulmxA.
  rewrite !inner_sum.
  have -> : \sum_i \sum_l sqn (col j (adj Q *m U) i l) = c j.
    by apply: eq_bigr => i _; rewrite big_ord1 mxE.
  have -> // : \sum_i \sum_l sqn (col j U i l) = 1.
  by rewrite -(col_one j); apply: eq_bigr => i _; rewrite big_ord1 mxE.
have Hsum : \sum_j c j <= r%:R.
  have -> : \sum_j c j = cinner (adj Q *m U) (adj Q *m U).
    by rewrite inner_sum exchange_big; apply: eq_bigr => j _; apply: eq_bigr => i _.
  rewrite -cinner_adj adjM adjK; apply: le_trans (frame_le Q HU) _.
  by rewrite /cinner HQ mxtrace1 raddfMn /=.
have := @rearrange R r k (fun j => s 0 j ^+ 2) c _ _ Hc Hsum.
move=> Hre; have {}Hre : \sum_i s 0 i ^+ 2 * c i <= \sum_(i < r) s 0 (lshift k i) ^+ 2.
  apply: Hre => [i j Hij|i]; last exact: sqr_ge0.
  by rewrite ler_pexpn2r ?nnegrE // Hs.
apply: le_trans (ler_add (lexx _) Hre) _.
rewrite !big_split_ord /= [X in X + _ + _ <= _]big1 ?add0r; last first.
  by move=> i _; rewrite mxE (unsplitK (inl i)) mxE expr2 mulr0 mul0r.
rewrite addrC; apply: ler_add; apply: ler_sum => i _; rewrite col_one mulr1 //.
by rewrite mxE (unsplitK (inr i)) mxE mulr1.
Qed.
End best.
End eckart.
