(** Nonsmooth parts, bounds, and what the derivatives are not. *)
From mathcomp Require Import all_ssreflect all_algebra.
Require Import Ring Field.
From Verif Require Import MxTac StiefelModel StiefelSpec StiefelProofs ObjectiveModel ObjectiveSpec ObjectiveProofs ObjectiveCases.
Import Order.Theory GRing.Theory Num.Theory.
Set Implicit Arguments.
Unset Strict Implicit.
Local Open Scope ring_scope.

Section facts.
Variable R : rcfType.
Add Field facts_field : (rcf_field R).

(** A positive number below finitely many positive numbers. *)
Lemma below_all m (a : 'I_m -> R) : (forall i, 0 < a i) -> exists e, 0 < e /\ forall i, e <= a i.
Proof.
move=> Ha; have S0 : 0 <= \sum_i (a i)^-1 by apply: sumr_ge0 => i _; rewrite invr_ge0 ltW.
have S1 : 0 < \sum_i (a i)^-1 + 1 by rewrite ltr_paddl ?ltr01.
exists (\sum_i (a i)^-1 + 1)^-1; split; first by rewrite invr_gt0.
move=> i; rewrite -[X in _ <= X]invrK lef_pinv ?posrE ?invr_gt0 //.
rewrite (bigD1 i) //= -addrA ler_addl; apply: addr_ge0; last exact: ler01.
by apply: sumr_ge0 => j _; rewrite invr_ge0 ltW.
Qed.
Lemma below2 (a b : R) : 0 < a -> 0 < b -> exists e, [/\ 0 < e, e <= a & e <= b].
Proof.
move=> Ha Hb; have [|e [E1 E2]] := @below_all 2 (fun i => if (i == 0%N :> nat) then a else b); first by move=> i; case: ifP.
by exists e; split => //; [exact: (E2 0)|exact: (E2 1)].
Qed.

Section sparsest.
Variables (m n : nat) (Q : 'M[R]_(m, n)).
Local Notation sv := (sparsest Q).
Implicit Types x d : 'cV[R]_n.
Definition sgn (a : R) : R := if a < 0 then -1 else 1.
Lemma sgn_mul a : sgn a * a = `|a|.
Proof. by rewrite /sgn; case: ltP => H; [rewrite ltr0_norm // mulN1r|rewrite ger0_norm // mul1r]. Qed.
Lemma sgn_le a b : sgn a * b <= `|b|.
Proof. by rewrite /sgn; case: ifP => _; rewrite ?mulN1r ?mul1r ?ler_norm // -normrN ler_norm. Qed.
Lemma sgn_stable a b : a != 0 -> `|b| <= `|a| / 2%:R -> sgn (a + b) = sgn a.
Proof.
move=> Ha Hb; rewrite /sgn.
have H2 : `|b| < `|a|.
  apply: (le_lt_trans Hb); rewrite ltr_pdivr_mulr ?ltr0n // mulr_natr mulr2n ltr_addl normr_gt0 //.
move: H2; case: (ltrP a 0) => Ha0.
- rewrite (ltr0_norm Ha0) ltr_norml => /andP[_ H]; rewrite addrC -ltr_subr_addr add0r H //.
- rewrite (ger0_norm Ha0) ltr_norml => /andP[H _]; rewrite ltNge -ler_subl_addl sub0r ltW //=.
Qed.
Lemma sv_value x : value sv x = norm1 (Q *m x).
Proof.
rewrite /value /= /norm1 !gemm0_1; apply: eq_bigr => i _; rewrite big_ord1.
by case: ltP => H; [rewrite ltr0_norm|rewrite ger0_norm].
Qed.
Lemma sv_egrad x : egrad sv x = Q^T *m (\col_i sgn ((Q *m x) i 0)).
Proof. by rewrite /egrad /= !gemm0_1. Qed.
Lemma sv_pair x d : inner (egrad sv x) d = \sum_i sgn ((Q *m x) i 0) * (Q *m d) i 0.
Proof.
rewrite sv_egrad inner_mull trmxK -dotE /dot; apply: eq_bigr => i _; rewrite big_ord1.
by rewrite mxE.
Qed.
Lemma sv_subgradient x y : value sv x + inner (egrad sv x) (y - x) <= value sv y.
Proof.
rewrite sv_pair !sv_value /norm1 -big_split /=; apply: ler_sum => i _; rewrite !big_ord1.
rewrite mulmxBr; have -> : (Q *m y - Q *m x) i 0 = (Q *m y) i 0 - (Q *m x) i 0 by rewrite !mxE.
by rewrite mulrBr sgn_mul addrC subrK sgn_le.
Qed.
Lemma sv_local x d : (forall i, (Q *m x) i 0 != 0) -> exists delta, 0 < delta /\ forall t : R, `|t| <= delta ->
  egrad sv (x + t *: d) = egrad sv x /\ value sv (x + t *: d) = value sv x + t * inner (egrad sv x) d.
Proof.
move=> Hx; pose B := \sum_i `|(Q *m d) i 0| + 1.
have HB : 0 < B by rewrite /B ltr_paddl ?ltr01 // sumr_ge0.
have [|e [He Hle]] := @below_all m (fun i => `|(Q *m x) i 0| / 2%:R / B).
  by move=> i; rewrite divr_gt0 // divr_gt0 ?normr_gt0 ?ltr0n.
exists e; split => // t Ht.
have S i : sgn ((Q *m (x + t *: d)) i 0) = sgn ((Q *m x) i 0).
  have -> : (Q *m (x + t *: d)) i 0 = (Q *m x) i 0 + t * (Q *m d) i 0 by rewrite mulmxDr mulZr; move: (Q *m x) (Q *m d) => u v; rewrite !mxE.
  apply: sgn_stable => //; rewrite normrM.
  have L : `|(Q *m d) i 0| <= B.
    rewrite /B (bigD1 i) //= -addrA ler_addl; apply: addr_ge0; [exact: sumr_ge0|exact: ler01].
  apply: (@le_trans _ _ (e * B)); first by apply: ler_pmul.
  by have := Hle i; rewrite ler_pdivl_mulr.
split.
- by rewrite !sv_egrad; congr (_ *m _); apply/colP => i; rewrite [LHS]mxE [RHS]mxE S.
- rewrite !sv_value sv_pair /norm1 mulr_sumr -big_split /=; apply: eq_bigr => i _; rewrite !big_ord1.
  rewrite -(sgn_mul ((Q *m (x + t *: d)) i 0)) S -sgn_mul.
  have -> : (Q *m (x + t *: d)) i 0 = (Q *m x) i 0 + t * (Q *m d) i 0 by rewrite mulmxDr mulZr; move: (Q *m x) (Q *m d) => u v; rewrite !mxE.
  by rewrite mulrDr mulrCA.
Qed.
Lemma sv_gradient x : (forall i, (Q *m x) i 0 != 0) -> is_gradient (@inner R n 1) (value sv) x (egrad sv x).
Proof.
move=> Hx d; have [e [He H]] := sv_local d Hx; exists 0, e; split => // t Ht.
have [_ ->] := H t Ht; rewrite [X in `|X|](_ : _ = 0) ?normr0 ?mul0r //.
by move: (value _ _) (inner _ _) => u v; rng R.
Qed.
Lemma sv_hessian_zero x d : (forall i, (Q *m x) i 0 != 0) -> is_derivative (@inner R n 1) (egrad sv) x d 0.
Proof.
move=> Hx; have [e [He H]] := sv_local d Hx; exists 0, e; split => // t Ht.
by have [-> _] := H t Ht; rewrite subrr scaler0 subrr inner0l mul0r.
Qed.
End sparsest.

(** A derivative is unique. *)
Lemma small_step (a b delta : R) : 0 < a -> 0 < delta -> exists t, [/\ 0 < t, t <= delta & b * t ^+ 2 < a].
Proof.
move=> Ha Hd; pose b' := `|b| + 1.
have Hb' : 0 < b' by rewrite /b' ltr_paddl ?ltr01.
have [e1 [E1 E2 E3]] := below2 Hd (@ltr01 R).
have [e [H1 H2 H3]] := below2 E1 (divr_gt0 Ha (mulr_gt0 Hb' (ltr0Sn R 1))).
exists e; split => //; first exact: le_trans E2.
have L1 : e ^+ 2 <= e by rewrite expr2 -[X in _ <= X]mulr1; apply: ler_wpmul2l; [exact: ltW|exact: le_trans E3].
have L2 : b' * e <= a / 2%:R.
  by rewrite mulrC -ler_pdivl_mulr // -mulrA -invfM (mulrC 2%:R).
apply: (@le_lt_trans _ _ (b' * e ^+ 2)).
  by apply: ler_wpmul2r; [exact: sqr_ge0|rewrite /b' (le_trans (ler_norm b)) // ler_addl ler01].
apply: (@le_lt_trans _ _ (b' * e)); first by apply: ler_wpmul2l => //; exact: ltW.
apply: (le_lt_trans L2); rewrite ltr_pdivr_mulr ?ltr0n // mulr_natr mulr2n ltr_addl //.
Qed.
Lemma derivative_unique m n (G : 'M[R]_(m, n) -> 'M[R]_(m, n)) x d h h' :
  is_derivative (@inner R m n) G x d h -> is_derivative (@inner R m n) G x d h' -> h = h'.
Proof.
move=> [C [e [He H]]] [C' [e' [He' H']]].
apply/eqP; rewrite -subr_eq0; apply/eqP; apply: inner_eq0.
apply/eqP; rewrite eq_le inner_ge0 andbT leNgt; apply/negP => Hp.
have [e0 [E0 E1 E2]] := below2 He He'.
have [t [T0 T1 T2]] := small_step (2%:R * (C + C')) Hp E0.
have Ht : `|t| <= e by rewrite (gtr0_norm T0); apply: le_trans T1 E1.
have Ht' : `|t| <= e' by rewrite (gtr0_norm T0); apply: le_trans T1 E2.
have := H t Ht; have := H' t Ht'.
set u := G _ - _ - _; set v := G _ - _ - t *: h => B1 B2.
have E : t *: (h - h') = u - v by rewrite /u /v scalerBr opprB [RHS]addrC addrA subrK.
clearbody u v.
have : t ^+ 2 * inner (h - h') (h - h') <= 2%:R * (C + C') * t ^+ 4.
  rewrite expr2 -mulrA -innerZl -innerZr E.
  apply: (@le_trans _ _ (2%:R * (inner u u + inner v v))).
    have : 0 <= inner (u + v) (u + v) by exact: inner_ge0.
    rewrite !(innerDl, innerDr) !(innerNl, innerNr) (innerC v u) => Hn.
    rewrite -subr_ge0; apply: (le_trans Hn); rewrite le_eqVlt; apply/orP; left; apply/eqP.
    by move: (inner u u) (inner u v) (inner v v) => a b c; rng R.
  by rewrite -mulrA (mulrDl C C') (addrC (inner u u)); apply: ler_wpmul2l; [exact: ler0n|exact: ler_add].
rewrite (exprD t 2 2) mulrA mulrC ler_pmul2r ?exprn_gt0 // leNgt T2 //.
Qed.
Lemma sparsest_hessian_wrong m n (Q : 'M[R]_(m, n)) x eta : (forall i, (Q *m x) i 0 != 0) -> eta <> 0 ->
  ~ is_derivative (@inner R n 1) (egrad (sparsest Q)) x eta (ehess (sparsest Q) x eta).
Proof.
move=> Hx He H; apply: He.
exact: (derivative_unique H (sv_hessian_zero eta Hx)).
Qed.

Lemma small_linear (a b delta : R) : 0 < a -> 0 < delta -> exists t, [/\ 0 < t, t <= delta & b * t < a].
Proof.
move=> Ha Hd; pose b' := `|b| + 1.
have Hb' : 0 < b' by rewrite /b' ltr_paddl ?ltr01.
have [e [H1 H2 H3]] := below2 Hd (divr_gt0 Ha (mulr_gt0 Hb' (ltr0Sn R 1))).
exists e; split => //.
have L2 : b' * e <= a / 2%:R by rewrite mulrC -ler_pdivl_mulr // -mulrA -invfM (mulrC 2%:R).
apply: (@le_lt_trans _ _ (b' * e)).
  by apply: ler_wpmul2r; [exact: ltW|rewrite /b' (le_trans (ler_norm b)) // ler_addl ler01].
by apply: (le_lt_trans L2); rewrite ltr_pdivr_mulr ?ltr0n // mulr_natr mulr2n ltr_addl.
Qed.
Lemma gradient_unique m n (f : 'M[R]_(m, n) -> R) x g g' :
  is_gradient (@inner R m n) f x g -> is_gradient (@inner R m n) f x g' -> g = g'.
Proof.
move=> H H'; apply/eqP; rewrite -subr_eq0; apply/eqP; apply: inner_eq0.
set d := g - g'; have [C [e [He B]]] := H d; have [C' [e' [He' B']]] := H' d.
apply/eqP; rewrite eq_le inner_ge0 andbT leNgt; apply/negP => Hp.
have [e0 [E0 E1 E2]] := below2 He He'.
have [t [T0 T1 T2]] := small_linear (C + C') Hp E0.
have Ht : `|t| <= e by rewrite (gtr0_norm T0); apply: le_trans T1 E1.
have Ht' : `|t| <= e' by rewrite (gtr0_norm T0); apply: le_trans T1 E2.
have E : t * inner d d = (f (x + t *: d) - f x - t * inner g' d) - (f (x + t *: d) - f x - t * inner g d).
  rewrite {1}/d innerBl; move: (f _) (f x) (inner g d) (inner g' d) => a b c c'; rng R.
have : t * inner d d <= (C + C') * t * t.
  rewrite E -mulrA -expr2; apply: (le_trans (ler_norm _)); apply: (le_trans (ler_norm_sub _ _)).
  by rewrite mulrDl addrC; apply: ler_add; [exact: B|exact: B'].
by rewrite mulrC ler_pmul2r // leNgt T2.
Qed.
Lemma quadratic_needs_symmetry d (A : 'M[R]_d) :
  (forall x, is_gradient (@inner R d 1) (value (euc_quadratic A)) x (egrad (euc_quadratic A) x)) -> symmetric A.
Proof.
move=> H; pose S := half R *: (A + A^T).
have HS : symmetric S by apply: symmetricZ; exact: symC.
have [_ D] := quadratic_ok HS.
have E x : value (euc_quadratic A) x = value (euc_quadratic S) x.
  rewrite /value /= !gemm0_1 !dotE /S mulZl mulmxDl innerZr innerDr.
  have -> : inner x (A^T *m x) = inner x (A *m x) by rewrite -inner_mull innerC.
  by congr (_ * _); rewrite -mulr2n -mulr_natr mulrCA half_two mulr1.
have G x : egrad (euc_quadratic A) x = egrad (euc_quadratic S) x.
  apply: (gradient_unique (H x)); have [K _] := D x.
  move=> e; have [C [dl [P Q]]] := K e; exists C, dl; split => // t Ht; rewrite !E; exact: Q.
have AS : A = S.
  apply/matrixP => i j.
  have := G (delta_mx j 0); rewrite /egrad /= !gemm0_1 -!colE => /colP /(_ i); by rewrite !mxE.
by rewrite /symmetric AS HS.
Qed.

(** The bound of StieSPCA. *)
Lemma orth_shrinks r n p (Vt : 'M[R]_(r, n)) (d : 'M[R]_(n, p)) : Vt *m Vt^T = 1%:M -> inner (Vt *m d) (Vt *m d) <= inner d d.
Proof.
move=> H; have E : inner (Vt *m d) (Vt *m d) = inner (Vt^T *m (Vt *m d)) (Vt^T *m (Vt *m d)).
  by rewrite [RHS]inner_mull trmxK (mulmxA Vt) H mul1mx.
have O : inner (d - Vt^T *m (Vt *m d)) (Vt^T *m (Vt *m d)) = 0.
  by rewrite innerBl -E inner_mull subrr.
rewrite E -[X in _ <= inner X X](subrK (Vt^T *m (Vt *m d)) d).
rewrite addrC; set w := _ *m _ in O *; move: O; set u := d - w; clearbody u w => O.
by rewrite !(innerDl, innerDr) (innerC w u) O addr0 add0r ler_addl inner_ge0.
Qed.
Lemma diag_shrinks r p (S : 'rV[R]_r) (s0 : R) (M : 'M[R]_(r, p)) : (forall i, 0 <= S 0 i <= s0) ->
  inner (diag_mx S *m M) (diag_mx S *m M) <= s0 * s0 * inner M M.
Proof.
move=> H; rewrite -!dotE /dot mulr_sumr; apply: ler_sum => i _; rewrite mulr_sumr; apply: ler_sum => j _.
rewrite mul_diag_mx !mxE mulrACA; apply: ler_wpmul2r; first by rewrite -expr2 sqr_ge0.
by have /andP[H0 H1] := H i; apply: ler_pmul.
Qed.
Lemma spca_bound m n p r lambda (B : 'M[R]_(m, n)) (U : 'M[R]_(m, r)) (S : 'rV[R]_r) (Vt : 'M[R]_(r, n)) (s0 : R) :
  B = U *m diag_mx S *m Vt -> orthonormal U -> Vt *m Vt^T = 1%:M -> (forall i, 0 <= S 0 i <= s0) ->
  lipschitz_bound (@inner R n p) (fun x => - \tr (x^T *m B^T *m B *m x)) (egrad (stie_spca p lambda B)) (spca_L s0).
Proof.
move=> HB HU HV HS x d.
have T y : \tr (y^T *m B^T *m B *m y) = inner (B *m y) (B *m y) by move=> *; rewrite /inner trM !mulmxA.
rewrite !T /egrad /= gemm0_1 /gemm0 mulmxDr innerZl (inner_mull B^T) trmxK.
have L : inner (B *m d) (B *m d) <= s0 * s0 * inner d d.
  rewrite HB -!mulmxA [X in X <= _](_ : _ = inner (diag_mx S *m (Vt *m d)) (diag_mx S *m (Vt *m d))); last first.
    by rewrite inner_mull (mulmxA U^T) HU mul1mx.
  apply: (le_trans (diag_shrinks _ HS)); apply: ler_wpmul2l; first by rewrite -expr2 sqr_ge0.
  exact: orth_shrinks.
move: (B *m x) (B *m d) L => u v L.
rewrite [X in `|X|](_ : _ = - inner v v); last first.
  by rewrite !(innerDl, innerDr) (innerC v u); move: (inner u u) (inner u v) (inner v v) => a b c; rng R.
by rewrite normrN ger0_norm ?inner_ge0 // /spca_L mulfK ?pnatr_eq0.
Qed.
End facts.
