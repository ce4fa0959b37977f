(** Norms of products, matrices near one of full rank, and the best approximation by a matrix of
    bounded rank (Eckart and Young).  No part of the model. *)
From mathcomp Require Import all_ssreflect all_algebra.
Require Import Ring Field.
From Verif Require Import MxTac StiefelModel StiefelSpec StiefelProofs SymFRSpec Decomp.
Import Order.TTheory GRing.Theory Num.Theory.
Set Implicit Arguments.
Unset Strict Implicit.
Local Open Scope ring_scope.

Section eckart.
Variable R : rcfType.
Add Field eck_field : (rcf_field R).

Lemma cauchy m n (A B : 'M[R]_(m, n)) : inner A B ^+ 2 <= inner A A * inner B B.
Proof.
case: (altP (inner B B =P 0)) => [E|HB].
  by rewrite (inner_eq0 E) inner0r expr2 mul0r inner0r mulr0.
have PB : 0 < inner B B by rewrite lt_neqAle eq_sym HB inner_ge0.
have := inner_ge0 (inner B B *: A - inner A B *: B).
rewrite innerBl !innerBr !innerZl !innerZr [inner B A]innerC.
have -> : inner B B * (inner B B * inner A A) - inner B B * (inner A B * inner A B) -
   (inner A B * (inner B B * inner A B) - inner A B * (inner A B * inner B B)) =
   inner B B * (inner A A * inner B B - inner A B ^+ 2) by move: (inner B B) (inner A B) (inner A A) => a b c; rng R.
by rewrite pmulr_rge0 // subr_ge0.
Qed.
Lemma inner_sum m n (A B : 'M[R]_(m, n)) : inner A B = \sum_i \sum_j A i j * B i j.
Proof. by rewrite -dotE. Qed.
Lemma norm_apply m n (A : 'M[R]_(m, n)) (v : 'cV[R]_n) :
  inner (A *m v) (A *m v) <= inner A A * inner v v.
Proof.
rewrite inner_sum [inner A A]inner_sum mulr_suml; apply: ler_sum => i _; rewrite big_ord1 -expr2.
have -> : (A *m v) i 0 = inner (row i A)^T v.
  by rewrite mxE inner_sum; apply: eq_bigr => k _; rewrite big_ord1 !mxE.
apply: le_trans (cauchy _ _) _; rewrite ler_wpmul2r ?inner_ge0 //.
by rewrite inner_sum; apply: ler_sum => k _; rewrite big_ord1 !mxE.
Qed.
(** Matrices near one of full rank have full rank. *)
Lemma full_near m n (x K : 'M[R]_(m, n)) : K^T *m x = 1%:M -> forall d, inner d d * inner K K < 1 -> full_rank (x + d).
Proof.
move=> E d Hd v Hv; apply/eqP; apply: contraT => Hn.
have Pv : 0 < inner v v by rewrite lt_def inner_ge0 andbT; apply: contra Hn => /eqP /inner_eq0 ->.
have Ev : v = - (K^T *m (d *m v)).
  have := congr1 (mulmx K^T) Hv; rewrite mulmx0 mulmxDl mulmxDr mulmxA E mul1mx => /eqP.
  by rewrite addr_eq0 => /eqP.
have H1 : inner v v <= inner K K * (inner d d * inner v v).
  rewrite {1 2}Ev innerNl innerNr opprK; apply: le_trans (norm_apply _ _) _; rewrite inner_tr.
  by apply: ler_wpmul2l (inner_ge0 _) _ _ _; exact: norm_apply.
have := lt_le_trans (_ : inner d d * inner K K * inner v v < inner v v) H1.
rewrite -[X in _ < X -> _]mul1r ltr_pmul2r // => /(_ Hd).
by rewrite mulrA [inner K K * _]mulrC ltxx.
Qed.

(** A frame loses at least as much as the projection on it. *)
Lemma frame_bound m n r (Q : 'M[R]_(m, r)) (A : 'M[R]_(m, n)) (X : 'M[R]_(r, n)) : orthonormal Q ->
  inner A A - inner (Q^T *m A) (Q^T *m A) <= inner (A - Q *m X) (A - Q *m X).
Proof.
move=> HQ; rewrite innerBl !innerBr.
have -> : inner A (Q *m X) = inner (Q^T *m A) X by rewrite [in RHS]inner_mull trmxK.
have -> : inner (Q *m X) A = inner (Q^T *m A) X by rewrite innerC [in RHS]inner_mull trmxK.
have -> : inner (Q *m X) (Q *m X) = inner X X by rewrite inner_mull mulmxA HQ mul1mx.
have := inner_ge0 (Q^T *m A - X); rewrite innerBl !innerBr [inner X (Q^T *m A)]innerC.
move: (inner A A) (inner (Q^T *m A) (Q^T *m A)) (inner (Q^T *m A) X) (inner X X) => a b c d H.
rewrite -subr_ge0; suff -> : a - c - (c - d) - (a - b) = b - c - (c - d) by []; rng R.
Qed.
Lemma frame_le m n r (Q : 'M[R]_(m, r)) (A : 'M[R]_(m, n)) : orthonormal Q ->
  inner (Q^T *m A) (Q^T *m A) <= inner A A.
Proof.
move=> HQ; rewrite -subr_ge0; have := frame_bound A (Q^T *m A) HQ.
rewrite [in X in _ <= X]innerBl !innerBr.
have -> : inner (Q *m (Q^T *m A)) (Q *m (Q^T *m A)) = inner A (Q *m (Q^T *m A)).
  by rewrite inner_mull [Q^T *m (Q *m _)]mulmxA HQ mul1mx inner_mull trmxK.
have := inner_ge0 (A - Q *m (Q^T *m A)).
rewrite innerBl !innerBr.
have -> : inner (Q *m (Q^T *m A)) (Q *m (Q^T *m A)) = inner A (Q *m (Q^T *m A)).
  by rewrite inner_mull [Q^T *m (Q *m _)]mulmxA HQ mul1mx inner_mull trmxK.
have -> : inner (Q *m (Q^T *m A)) A = inner (Q^T *m A) (Q^T *m A) by rewrite inner_mull.
have -> : inner A (Q *m (Q^T *m A)) = inner (Q^T *m A) (Q^T *m A) by rewrite [LHS]innerC inner_mull.
by rewrite subrr subr0.
Qed.

Lemma rearrange r k (s c : 'I_(r + k) -> R) : (forall i j : 'I_(r + k), (i <= j)%N -> s j <= s i) ->
  (forall i, 0 <= s i) -> (forall i, 0 <= c i <= 1) -> \sum_i c i <= r%:R ->
  \sum_i s i * c i <= \sum_(i < r) s (lshift k i).
Proof.
move=> Hs H0 Hc Hr.
have [th [T0 T1 T2]] : exists th, [/\ 0 <= th, forall i : 'I_r, th <= s (lshift k i) & forall i : 'I_k, s (rshift r i) <= th].
  case: r s c Hs H0 Hc Hr => [|r] s c Hs H0 Hc Hr.
    exists (\sum_i s i); split; [by apply: sumr_ge0 | by case |].
    move=> i; rewrite (bigD1 (rshift 0 i)) //= ler_addl; exact: sumr_ge0.
  exists (s (lshift k ord_max)); split=> // i; apply: Hs => /=; first by rewrite -ltnS.
  exact: leq_trans (leqnSn r) (leq_addr _ _).
rewrite !big_split_ord /= in Hr *.
have A1 : \sum_(i < k) s (rshift r i) * c (rshift r i) <= th * \sum_(i < k) c (rshift r i).
  rewrite mulr_sumr; apply: ler_sum => i _; apply: ler_wpmul2r => //; by have /andP [] := Hc (rshift r i).
have A2 : th * (r%:R - \sum_(i < r) c (lshift k i)) <= \sum_(i < r) s (lshift k i) * (1 - c (lshift k i)).
  have -> : r%:R - \sum_(i < r) c (lshift k i) = \sum_(i < r) (1 - c (lshift k i)).
    by rewrite sumrB sumr_const card_ord.
  rewrite mulr_sumr; apply: ler_sum => i _; apply: ler_wpmul2r => //; rewrite subr_ge0.
  by have /andP [] := Hc (lshift k i).
have A3 : \sum_(i < k) c (rshift r i) <= r%:R - \sum_(i < r) c (lshift k i) by rewrite ler_subr_addl.
have A4 := ler_wpmul2l T0 A3.
have := le_trans (le_trans A1 A4) A2.
have -> : \sum_(i < r) s (lshift k i) * (1 - c (lshift k i)) = \sum_(i < r) s (lshift k i) - \sum_(i < r) s (lshift k i) * c (lshift k i).
  by rewrite -sumrB; apply: eq_bigr => i _; rewrite mulrBr mulr1.
by rewrite ler_subr_addl.
Qed.

Section best.
Variables (m n r k : nat) (U : 'M[R]_(m, r + k)) (V : 'M[R]_(n, r + k)) (s : 'rV[R]_(r + k)).
Hypotheses (HU : orthonormal U) (HV : orthonormal V) (H0 : forall i, 0 <= s 0 i).
Hypothesis Hs : forall i j : 'I_(r + k), (i <= j)%N -> s 0 j <= s 0 i.
Lemma usv_inner q (W : 'M[R]_(q, r + k)) (d : 'rV[R]_(r + k)) :
  inner (W *m diag_mx d *m V^T) (W *m diag_mx d *m V^T) = \sum_j d 0 j ^+ 2 * \sum_i W i j ^+ 2.
Proof.
rewrite inner_mulr trmxK -[_ *m V^T *m V]mulmxA HV mulmx1 inner_sum exchange_big /=; apply: eq_bigr => j _.
rewrite mulr_sumr; apply: eq_bigr => i _; rewrite mul_mx_diag !mxE -expr2 exprMn mulrC //.
Qed.
Lemma col_one (j : 'I_(r + k)) : \sum_i U i j ^+ 2 = 1.
Proof.
have := congr1 (fun M : 'M_(r + k) => M j j) HU; rewrite mxE [X in _ = X -> _]mxE eqxx mulr1n => <-.
by apply: eq_bigr => i _; rewrite !mxE expr2.
Qed.
Lemma truncate : U *m diag_mx s *m V^T - lsubmx U *m diag_mx (lsubmx s) *m (lsubmx V)^T =
  U *m diag_mx (row_mx 0 (rsubmx s)) *m V^T.
Proof.
apply/matrixP => i j; rewrite !mxE !big_split_ord /=.
rewrite (eq_bigr (fun l => (lsubmx U *m diag_mx (lsubmx s)) i l * (lsubmx V)^T l j)); last first.
  by move=> l _; rewrite !mul_mx_diag !mxE.
rewrite addrAC subrr add0r [X in _ = X + _]big1 ?add0r; last first.
  by move=> l _; rewrite mul_mx_diag !mxE (unsplitK (inl l)) mxE mulr0 mul0r.
by apply: eq_bigr => l _; rewrite !mul_mx_diag !mxE (unsplitK (inr l)) mxE.
Qed.
Lemma eckart_young (Z1 : 'M[R]_(m, r)) (Z2 : 'M[R]_(n, r)) (A := U *m diag_mx s *m V^T)
  (Y := lsubmx U *m diag_mx (lsubmx s) *m (lsubmx V)^T) : (r <= m)%N ->
  inner (A - Y) (A - Y) <= inner (A - Z1 *m Z2^T) (A - Z1 *m Z2^T).
Proof.
move=> Hm; rewrite /Y /A truncate -/A usv_inner.
have [Q [q [E HQ _]]] := qr_exists Z1 Hm; rewrite E -mulmxA.
apply: le_trans (frame_bound A (q *m Z2^T) HQ).
have -> : Q^T *m A = (Q^T *m U) *m diag_mx s *m V^T by rewrite /A !mulmxA.
rewrite /A !usv_inner ler_subr_addr.
pose c j := \sum_i (Q^T *m U) i j ^+ 2.
have Hc j : 0 <= c j <= 1.
  rewrite sumr_ge0 /=; last by move=> i _; exact: sqr_ge0.
  have := frame_le (col j U) HQ; have -> : Q^T *m col j U = col j (Q^T *m U) by rewrite !colE mulmxA.
  rewrite !inner_sum.
  have -> : \sum_i \sum_l col j (Q^T *m U) i l * col j (Q^T *m U) i l = c j.
    by apply: eq_bigr => i _; rewrite big_ord1 !mxE expr2.
  have -> // : \sum_i \sum_l col j U i l * col j U i l = 1.
  by rewrite -(col_one j); apply: eq_bigr => i _; rewrite big_ord1 !mxE expr2.
have Hsum : \sum_j c j <= r%:R.
  have -> : \sum_j c j = inner (Q^T *m U) (Q^T *m U).
    by rewrite inner_sum exchange_big; apply: eq_bigr => j _; apply: eq_bigr => i _; rewrite expr2.
  rewrite -inner_tr trM trmxK; apply: le_trans (frame_le Q HU) _.
  by rewrite /inner HQ mxtrace1.
have := @rearrange r k (fun j => s 0 j ^+ 2) c _ _ Hc Hsum.
move=> Hre; have {}Hre : \sum_i s 0 i ^+ 2 * c i <= \sum_(i < r) s 0 (lshift k i) ^+ 2.
  apply: Hre => [i j Hij|i]; last exact: sqr_ge0.
  by rewrite ler_pexpn2r ?nnegrE // Hs.
apply: le_trans (ler_add (lexx _) Hre) _.
rewrite !big_split_ord /= [X in X + _ + _ <= _]big1 ?add0r; last first.
  by move=> i _; rewrite mxE (unsplitK (inl i)) mxE expr2 mulr0 mul0r.
rewrite addrC; apply: ler_add; apply: ler_sum => i _; rewrite col_one mulr1 //.
by rewrite mxE (unsplitK (inr i)) mxE mulr1.
Qed.
End best.
End eckart.
