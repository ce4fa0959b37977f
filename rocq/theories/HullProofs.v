(** Proofs about the shortest vector of a convex hull. *)
From mathcomp Require Import all_ssreflect all_algebra.
Require Import Ring Field.
From Verif Require Import MxTac StiefelModel StiefelSpec StiefelProofs ObjectiveModel ObjectiveSpec ObjectiveProofs ObjectiveCases HullModel HullSpec.
Import Order.TTheory GRing.Theory Num.Theory.
Set Implicit Arguments.
Unset Strict Implicit.
Local Open Scope ring_scope.

Section hull.
Variables (R : rcfType) (d k : nat).
Local Notation l := (1 + k)%N.
Add Field mhull_field : (rcf_field R).
Variables (Ys : 'I_l -> 'cV[R]_d) (Hv : option ('cV[R]_d -> 'cV[R]_d)).
Local Notation P := (apply_Hv Hv).
Implicit Types x eta : 'cV[R]_l.
Implicit Types u v : 'cV[R]_d.
Lemma inner_col x eta : inner x eta = \sum_i x i 0 * eta i 0.
Proof. by rewrite -dotE /dot; apply: eq_bigr => i _; rewrite big_ord1. Qed.
Lemma mul_col x (M : 'M[R]_1) : x *m M = M 0 0 *: x.
Proof. by rewrite [M]mx11_scalar mul_mx_scalar !mxE eqxx mulr1n. Qed.
Lemma tr_col x eta : (x^T *m eta) 0 0 = inner x eta.
Proof. by rewrite /inner /mxtrace big_ord1. Qed.
Lemma sym1 (M : 'M[R]_1) : half R *: (M + M^T) = M.
Proof.
by apply/matrixP => i j; rewrite !mxE !ord1 -mulr2n -mulr_natl mulrA half2' mul1r.
Qed.
Lemma projE x eta : @extr_projection R 1 k x eta = eta - inner x eta *: x.
Proof. by rewrite /extr_projection sym1 /gemm /gemm0 !scale1r mul_col tr_col scaleN1r addrC. Qed.
Lemma hess_pair x eta exix G : inner x eta = 0 ->
  inner eta (@hess_euclidean R 1 k x eta exix G) = inner eta exix - inner x G * inner eta eta.
Proof.
move=> H; rewrite /hess_euclidean projE innerBr innerZr (innerC eta x) H mulr0 subr0.
by rewrite sym1 /gemm /gemm0 !scale1r mul_col tr_col scaleN1r addrC innerBr innerZr.
Qed.
Lemma sq_lengthE v : sq_length Hv v = inner v (P v).
Proof. by rewrite /sq_length /apply_Hv; case: Hv. Qed.
Hypothesis HP : metric_operator Hv.
Lemma Plin (a : R) u v : P (a *: u + v) = a *: P u + P v.
Proof. by move: HP; rewrite /metric_operator /apply_Hv; case: Hv => // h [H _]. Qed.
Lemma Pself u v : inner (P u) v = inner u (P v).
Proof. by move: HP; rewrite /metric_operator /apply_Hv; case: Hv => // h [_ [H _]]. Qed.
Lemma Ppos u : 0 <= inner u (P u).
Proof. by move: HP; rewrite /metric_operator /apply_Hv; case: Hv => [h [_ [_ H]]|_]; rewrite ?inner_ge0. Qed.
Definition w x := combine Ys (hadamard x x).
Definition g x i : R := inner (Ys i) (P (w x)).
Lemma wE x : w x = \sum_i x i 0 ^+ 2 *: Ys i.
Proof. by rewrite /w combineE; apply: eq_bigr => i _; rewrite mxE expr2. Qed.
Lemma inner_sum (c : 'I_l -> R) u : inner (\sum_i c i *: Ys i) u = \sum_i c i * inner (Ys i) u.
Proof. by elim/big_ind2: _ => [|a b a' b' <- <-|i _]; rewrite ?inner0l ?innerDl // innerZl. Qed.
Lemma value_g x : inner (w x) (P (w x)) = \sum_i x i 0 ^+ 2 * g x i.
Proof. by rewrite {1}wE inner_sum. Qed.
(** A certificate: if no vector Y_i is much better than w, then w is nearly shortest. *)
Lemma certificate u (delta : R) : (forall i, inner u (P u) - delta <= inner (Ys i) (P u)) ->
  forall v, in_hull Ys v -> inner u (P u) - 2%:R * delta <= inner v (P v).
Proof.
move=> H v [c [c0 [c1 Ev]]].
have H1 : inner u (P u) - delta <= inner v (P u).
  rewrite Ev inner_sum -[X in X <= _]mul1r -c1 mulr_suml; apply: ler_sum => i _.
  by rewrite ler_wpmul2l.
have H2 : 0 <= inner v (P v) - 2%:R * inner v (P u) + inner u (P u).
  have := Ppos (v - u); rewrite -scaleN1r addrC Plin !innerDl !innerDr !innerZl !innerZr -(Pself u v) (innerC (P u)).
  by move: (inner v (P v)) (inner v (P u)) (inner u (P u)) => a b e; rewrite [X in 0 <= X -> _](_ : _ = a - 2%:R * b + e) //; rng R.
rewrite -subr_ge0; apply: le_trans (addr_ge0 H2 (mulr_ge0 (ler0n R 2) (_ : 0 <= inner v (P u) - (inner u (P u) - delta)))) _; first by rewrite subr_ge0.
move: (inner v (P v)) (inner v (P u)) (inner u (P u)) => a b e.
by rewrite le_eqVlt; apply/orP; left; apply/eqP; rng R.
Qed.
Lemma gradE x i : (hull_grad Ys Hv x) i 0 = 4%:R * x i 0 * (g x i - inner (w x) (P (w x)) * 1) + 4%:R * x i 0 * inner (w x) (P (w x)) - inner x (egrad (convex_hull Ys Hv) x) * x i 0.
Proof.
rewrite /hull_grad -/(egrad _ _) /grad_euclidean projE; move: (inner x _) => s; rewrite ch_egrad !mxE -/(w x) -/(g x i).
by move: (x i 0) (g x i) (inner (w x) _) => a b c; rewrite E4; rng R.
Qed.
Lemma multiplier x : inner x (egrad (convex_hull Ys Hv) x) = 4%:R * inner (w x) (P (w x)).
Proof. by rewrite ch_egrad innerC hull_pair. Qed.
Lemma first_order x i : hull_grad Ys Hv x = 0 -> x i 0 != 0 -> g x i = inner (w x) (P (w x)).
Proof.
move=> /colP/(_ i); rewrite gradE multiplier mxE; move: (inner (w x) _) (g x i) (x i 0) => f b a H Ha.
have : 4%:R * a * (b - f) = 0 by rewrite -H E4; rng R.
by move/eqP; rewrite !mulf_eq0 pnatr_eq0 (negPf Ha) /= subr_eq0 => /eqP.
Qed.
Lemma all_better x : second_order (hull_grad Ys Hv) (hull_hess Ys Hv) x ->
  forall i, inner (w x) (P (w x)) <= g x i.
Proof.
move=> [Hg Hh] i; case: (eqVneq (x i 0) 0) => Hx; last by rewrite (first_order Hg Hx).
pose e : 'cV[R]_l := \col_j (j == i)%:R.
have He (y : 'cV[R]_l) : inner e y = y i 0.
  rewrite inner_col (bigD1 i) //= big1 => [|j /negPf Hj]; first by rewrite mxE eqxx mul1r addr0.
  by rewrite mxE Hj mul0r.
have Ht : inner x e = 0 by rewrite innerC He.
have := Hh e Ht; rewrite /hull_hess -/(ehess _ _ _) -/(egrad _ _) hess_pair // multiplier !He ch_ehess !mxE eqxx Hx -/(w x) -/(g x i).
rewrite !(mulr0, mul0r, addr0, mulr1) -mulrBr pmulr_rge0 ?ltr0n // subr_ge0; apply.
Qed.
End hull.
