(** The secular function is concave: Newton's method from the left stays on the left. *)
From mathcomp Require Import all_ssreflect all_algebra.
Require Import Ring Field.
From Verif Require Import MxTac LSR1SubSpec.
Import Order.TTheory GRing.Theory Num.Theory.
Set Implicit Arguments.
Unset Strict Implicit.
Local Open Scope ring_scope.

Section secular.
Variables (R : rcfType) (I : finType).
Add Field secfield : (rcf_field R).
Implicit Types (c w lam a : I -> R) (x y Delta : R).

Lemma three : 3%:R = 1 + 1 + 1 :> R.
Proof. by rewrite -(natrD R 1 1) -(natrD R 2 1). Qed.
Lemma cube_id (m w : R) : m ^+ 3 - (3%:R * m - 2%:R * w) * w ^+ 2 = (m - w) ^+ 2 * (m + 2%:R * w).
Proof. rewrite three mulr2n (exprS m 2) !expr2; toR R; ring. Qed.
Lemma cube_gap (m w : R) : 0 < m -> 0 < w -> (3%:R * m - 2%:R * w) / m ^+ 3 <= 1 / w ^+ 2.
Proof.
move=> m0 w0; rewrite ler_pdivr_mulr ?exprn_gt0 // mulrAC ler_pdivl_mulr ?exprn_gt0 // mul1r.
rewrite -subr_ge0; have -> : m ^+ 3 - (3%:R * m - 2%:R * w) * w ^+ 2 = (m - w) ^+ 2 * (m + 2%:R * w).
  exact: cube_id.
by rewrite mulr_ge0 ?sqr_ge0 // addr_ge0 ?mulr_ge0 ?ler0n // ltW.
Qed.
Lemma cube_gap_strict (m w : R) : 0 < m -> 0 < w -> w != m -> (3%:R * m - 2%:R * w) / m ^+ 3 < 1 / w ^+ 2.
Proof.
move=> m0 w0 ne; rewrite lt_neqAle cube_gap // andbT.
apply/eqP => E; have : (m - w) ^+ 2 * (m + 2%:R * w) = 0.
  have -> : (m - w) ^+ 2 * (m + 2%:R * w) = m ^+ 3 - (3%:R * m - 2%:R * w) * w ^+ 2.
    by rewrite cube_id.
  apply/eqP; rewrite subr_eq0; apply/eqP.
  have w2 : w ^+ 2 != 0 by rewrite expf_neq0 // gt_eqF.
  have m3 : m ^+ 3 != 0 by rewrite expf_neq0 // gt_eqF.
  by move/eqP: E; rewrite eqr_div // mul1r => /eqP ->.
move/eqP; rewrite mulf_eq0 expf_eq0 /= subr_eq0 eq_sym (negbTE ne) /=.
by rewrite gt_eqF // addr_gt0 // mulr_gt0 // ltr0n.
Qed.

Lemma hoelder_mean c w : (forall i, 0 <= c i) -> (forall i, 0 < w i) -> 0 < \sum_i c i ->
  let m := (\sum_i c i * w i) / \sum_i c i in
  0 < m /\ (\sum_i c i) / m ^+ 2 <= \sum_i c i / w i ^+ 2 /\
  ((exists i j, [/\ 0 < c i, 0 < c j & w i != w j]) -> (\sum_i c i) / m ^+ 2 < \sum_i c i / w i ^+ 2).
Proof.
move=> c0 w0 A0 /=; set A := \sum_i c i; set W := \sum_i c i * w i; set m := W / A.
have W0 : 0 < W.
  rewrite lt_neqAle sumr_ge0 ?andbT; last by move=> i _; rewrite mulr_ge0 // ltW.
  rewrite eq_sym; apply/eqP => /eqP; rewrite psumr_eq0; last by move=> i _; rewrite mulr_ge0 // ltW.
  move/allP => E; move: A0; rewrite /A big1 ?ltxx // => i _.
  by move: (E i (mem_index_enum i)); rewrite /= mulf_eq0 (gt_eqF (w0 i)) orbF => /eqP.
have m0 : 0 < m by rewrite divr_gt0.
have eA : \sum_i c i * ((3%:R * m - 2%:R * w i) / m ^+ 3) = A / m ^+ 2.
  have -> : \sum_i c i * ((3%:R * m - 2%:R * w i) / m ^+ 3) = (3%:R * m * A - 2%:R * W) / m ^+ 3.
    rewrite /A /W !mulr_sumr -sumrB mulr_suml; apply: eq_bigr => i _.
    by move: (3%:R : R) (2%:R : R) (m ^+ 3)^-1 => a b d; toR R; ring.
  have An : A != 0 by rewrite gt_eqF.
  have mn : m != 0 by rewrite gt_eqF.
  have -> : W = m * A by rewrite /m divfK.
  have -> : 3%:R * m * A - 2%:R * (m * A) = m * A.
    by rewrite three mulr2n; toR R; ring.
  rewrite (exprS m 2).
  by rewrite invfM mulrACA mulfV // mul1r.
have le i : c i * ((3%:R * m - 2%:R * w i) / m ^+ 3) <= c i / w i ^+ 2.
  by apply: ler_wpmul2l => //; rewrite -[X in _ <= X]mul1r cube_gap.
split=> //; split; first by rewrite -eA; apply: ler_sum.
case=> i [j [ci cj wij]]; rewrite -eA.
have [s [cs ws]] : exists s, 0 < c s /\ w s != m.
  by case: (eqVneq (w i) m) => [E|]; [exists j; rewrite -E eq_sym | exists i].
rewrite (bigD1 s) //= [X in _ < X](bigD1 s) //=; apply: ltr_le_add; last by apply: ler_sum.
by rewrite ltr_pmul2l // -[X in _ < X]mul1r cube_gap_strict.
Qed.

Variables (lam a : I -> R).

Lemma psum x : (forall i, 0 < lam i + x) -> 0 <= \sum_i (a i / (lam i + x)) ^+ 2.
Proof. by move=> _; apply: sumr_ge0 => i _; exact: sqr_ge0. Qed.
Lemma plen_sq x : plen lam a x ^+ 2 = \sum_i (a i / (lam i + x)) ^+ 2.
Proof. by rewrite /plen sqr_sqrtr //; apply: sumr_ge0 => i _; exact: sqr_ge0. Qed.
Lemma plen_ge0 x : 0 <= plen lam a x.
Proof. exact: sqrtr_ge0. Qed.
Lemma plen_gt0 x s : a s != 0 -> 0 < lam s + x -> 0 < plen lam a x.
Proof.
move=> as0 ts; rewrite sqrtr_gt0 (bigD1 s) //= ltr_spaddl ?sumr_ge0 //; last by move=> i _; exact: sqr_ge0.
by rewrite lt_neqAle sqr_ge0 andbT eq_sym expf_eq0 /= mulf_neq0 // invr_eq0 gt_eqF.
Qed.
Lemma slope_gt0 x s : a s != 0 -> (forall i, 0 < lam i + x) -> 0 < slope lam a x.
Proof.
move=> as0 t0; rewrite divr_gt0 ?exprn_gt0 ?(plen_gt0 as0) //.
rewrite (bigD1 s) //= ltr_spaddl //.
  by apply: divr_gt0; [rewrite exprn_even_gt0 | exact: exprn_gt0].
by apply: sumr_ge0 => i _; rewrite divr_ge0 ?sqr_ge0 // exprn_ge0 // ltW.
Qed.

(** The tangent lies above the function; strictly, away from the point, when two components of the
    gradient belong to different eigenvalues. *)
Lemma tangent_above x y s : a s != 0 -> (forall i, 0 < lam i + x) -> (forall i, 0 < lam i + y) ->
  (plen lam a y)^-1 <= (plen lam a x)^-1 + (y - x) * slope lam a x /\
  ((exists i j, [/\ a i != 0, a j != 0 & lam i != lam j]) -> x != y ->
   (plen lam a y)^-1 < (plen lam a x)^-1 + (y - x) * slope lam a x).
Proof.
move=> as0 tx ty.
pose c i := (a i / (lam i + x)) ^+ 2; pose w i := (lam i + y) / (lam i + x).
have c0 i : 0 <= c i by exact: sqr_ge0.
have w0 i : 0 < w i by rewrite divr_gt0.
have Nx : 0 < plen lam a x by exact: (plen_gt0 as0).
have Ny : 0 < plen lam a y by exact: (plen_gt0 as0).
have eA : \sum_i c i = plen lam a x ^+ 2 by rewrite plen_sq.
have A0 : 0 < \sum_i c i by rewrite eA exprn_gt0.
have eS : \sum_i c i / w i ^+ 2 = plen lam a y ^+ 2.
  rewrite plen_sq; apply: eq_bigr => i _; rewrite /c /w !exprMn !exprVn.
  have nx : (lam i + x) ^+ 2 != 0 by rewrite expf_neq0 // gt_eqF.
  have ny : (lam i + y) ^+ 2 != 0 by rewrite expf_neq0 // gt_eqF.
  move: nx ny; move: (a i ^+ 2) ((lam i + x) ^+ 2) ((lam i + y) ^+ 2) => p r s' /eqP nx /eqP ny; toR R; field; split; exact.
have eW : \sum_i c i * w i = plen lam a x ^+ 2 + (y - x) * (slope lam a x * plen lam a x ^+ 3).
  rewrite /slope divfK ?expf_neq0 ?gt_eqF // plen_sq mulr_sumr -big_split; apply: eq_bigr => i _ /=; rewrite /c /w.
  have /eqP nx : lam i + x != 0 by rewrite gt_eqF.
  rewrite (_ : lam i + y = (lam i + x) + (y - x)); last by rewrite -addrA [x + _]addrC subrK.
  move: nx; rewrite !exprS !expr0; move: (lam i + x) (y - x) (a i) => t h b nx; toR R; field; exact.
have [m0 [le lt]] := hoelder_mean c0 w0 A0.
move: m0 le lt; rewrite eS eA; set m := _ / _ => m0 le lt.
have em : m = (plen lam a x)^-1 * plen lam a x + (y - x) * slope lam a x * plen lam a x.
  rewrite /m eW; have /eqP N0 : plen lam a x != 0 by rewrite gt_eqF.
  move: N0; rewrite !exprS !expr0; move: (plen lam a x) (slope lam a x) (y - x) => N sl h N0; toR R; field; exact.
have em2 : (plen lam a x)^-1 + (y - x) * slope lam a x = m / plen lam a x.
  by rewrite em -mulrDl mulfK // gt_eqF.
have key (r : R) : r = plen lam a x / m -> 0 < r -> (r <= plen lam a y -> (plen lam a y)^-1 <= m / plen lam a x) /\
  (r < plen lam a y -> (plen lam a y)^-1 < m / plen lam a x).
  move=> -> r0; have -> : m / plen lam a x = (plen lam a x / m)^-1 by rewrite invfM invrK mulrC.
  by rewrite lef_pinv ?posrE // ltf_pinv ?posrE.
have r0 : 0 < plen lam a x / m by rewrite divr_gt0.
have sq : plen lam a x ^+ 2 / m ^+ 2 = (plen lam a x / m) ^+ 2 by rewrite [RHS]exprMn exprVn.
have [k1 k2] := key _ erefl r0; rewrite em2; split.
  by apply: k1; rewrite -ler_sqr ?nnegrE; [rewrite -sq | exact: ltW | exact: plen_ge0].
case=> i [j [ai aj lij]] xy; apply: k2; rewrite -ltr_sqr ?nnegrE; [rewrite -sq; apply: lt | exact: ltW | exact: plen_ge0].
have cp s' : a s' != 0 -> 0 < c s'.
  by move=> H; rewrite lt_neqAle sqr_ge0 andbT eq_sym expf_eq0 /= mulf_neq0 // invr_eq0 gt_eqF.
exists i, j; split; rewrite ?cp //; apply/eqP => E.
have : (lam i + y) * (lam j + x) = (lam j + y) * (lam i + x).
  apply/eqP; rewrite -(eqr_div _ _ (lt0r_neq0 (tx i)) (lt0r_neq0 (tx j))); exact/eqP.
move/eqP; rewrite -subr_eq0 (_ : _ - _ = (lam i - lam j) * (x - y)); last by toR R; ring.
by rewrite mulf_eq0 !subr_eq0 (negbTE lij) (negbTE xy).
Qed.

(** Left of the root: the length is at least Delta. *)
Variable Delta : R.
Hypothesis D0 : 0 < Delta.
Lemma secular_le0 x s : a s != 0 -> 0 < lam s + x -> (secular lam a Delta x <= 0) = (Delta <= plen lam a x).
Proof. by move=> as0 ts; rewrite /secular subr_le0 lef_pinv ?posrE ?(plen_gt0 as0). Qed.
Lemma secular_lt0 x s : a s != 0 -> 0 < lam s + x -> (secular lam a Delta x < 0) = (Delta < plen lam a x).
Proof. by move=> as0 ts; rewrite /secular subr_lt0 ltf_pinv ?posrE ?(plen_gt0 as0). Qed.

Lemma nstep_left x s : a s != 0 -> (forall i, 0 < lam i + x) -> Delta <= plen lam a x ->
  let y := nstep lam a Delta x in
  x <= y /\ Delta <= plen lam a y /\
  (Delta < plen lam a x -> (exists i j, [/\ a i != 0, a j != 0 & lam i != lam j]) -> x < y /\ Delta < plen lam a y).
Proof.
move=> as0 tx le /=; rewrite /nstep; set y := _ - _.
have sl0 := slope_gt0 as0 tx.
have se : secular lam a Delta x <= 0 by rewrite (secular_le0 as0).
have xy : x <= y by rewrite /y ler_addl oppr_ge0 pmulr_lle0 // invr_gt0.
have ty i : 0 < lam i + y by apply: lt_le_trans (tx i) _; rewrite ler_add2l.
have [t1 t2] := tangent_above as0 tx ty.
have E : (plen lam a x)^-1 + (y - x) * slope lam a x = Delta^-1.
  rewrite /y addrAC subrr add0r mulNr divfK ?gt_eqF // /secular opprB addrC addrNK //.
move: t1 t2; rewrite E => t1 t2; split=> //; split.
  by rewrite -lef_pinv ?posrE ?(plen_gt0 as0).
move=> lt ex; have se' : secular lam a Delta x < 0 by rewrite (secular_lt0 as0).
have xy' : x < y by rewrite /y ltr_addl oppr_gt0 pmulr_llt0 // invr_gt0.
by split=> //; rewrite -ltf_pinv ?posrE ?(plen_gt0 as0) // t2 // lt_eqF.
Qed.
End secular.
