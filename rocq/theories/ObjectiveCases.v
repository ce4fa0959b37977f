(** The objective functions that are not quadratic in one operator. *)
From mathcomp Require Import all_ssreflect all_algebra.
Require Import Ring Field.
From Verif Require Import MxTac StiefelModel StiefelSpec StiefelProofs ObjectiveModel ObjectiveSpec ObjectiveProofs.
Import Order.Theory GRing.Theory Num.Theory.
Set Implicit Arguments.
Unset Strict Implicit.
Local Open Scope ring_scope.

Section lyapunov.
Variable R : rcfType.
Add Field lyapunov_field : (rcf_field R).
Variables (n p c : nat) (A M : 'M[R]_n) (C : 'M[R]_(n, c)).
Hypotheses (HA : symmetric A) (HM : symmetric M).
Local Notation ly := (lyapunov p A M C).
Implicit Types x eta : 'M[R]_(n, p).

Lemma ly_value x : value ly x = inner (x^T *m (A *m x)) (x^T *m (M *m x)) - inner (C^T *m x) (C^T *m x).
Proof. by rewrite /value /= !gemm0_1 !dotE. Qed.
Lemma ly_doc x : value ly x = \tr (x *m x^T *m A *m x *m x^T *m M) - \tr (x *m x^T *m C *m C^T).
Proof.
rewrite ly_value /inner; congr (_ - _).
- by rewrite !trM trmxK HA -!mulmxA [RHS]mxtrace_mulC -!mulmxA.
- by rewrite !trM trmxK -!mulmxA [RHS]mxtrace_mulC -!mulmxA.
Qed.
Lemma ly_egrad x : egrad ly x = 2%:R *: (A *m x *m (x^T *m (M *m x)) - C *m (C^T *m x) + M *m x *m (x^T *m (A *m x))).
Proof.
rewrite /egrad /= /gemm /gemm0 !scale1r !scalerDr !scalerN scaleNr.
by rewrite addrC (addrC (- _)).
Qed.
Lemma ly_ehess x eta : ehess ly x eta = 2%:R *: (A *m eta *m (x^T *m (M *m x)) + M *m eta *m (x^T *m (A *m x)) +
  A *m x *m (x^T *m (M *m eta))^T + M *m x *m (x^T *m (A *m eta))^T + A *m x *m (x^T *m (M *m eta)) +
  M *m x *m (x^T *m (A *m eta)) - C *m (C^T *m eta)).
Proof.
rewrite /ehess /= /gemm /gemm0 !scale1r !scalerDr !scalerN scaleNr.
by mxlin R; rng R.
Qed.
Lemma quad_expand (B : 'M[R]_n) x eta (t : R) : (x + t *: eta)^T *m (B *m (x + t *: eta)) =
  x^T *m (B *m x) + t *: (eta^T *m (B *m x) + x^T *m (B *m eta)) + t ^+ 2 *: (eta^T *m (B *m eta)).
Proof. by rewrite !expr2; mxz; mxlin R; rng R. Qed.
Lemma inner_swap (B : 'M[R]_n) (S : 'M[R]_p) x eta : symmetric B -> symmetric S ->
  inner S (eta^T *m (B *m x) + x^T *m (B *m eta)) = 2%:R * inner (B *m x *m S) eta.
Proof.
move=> HB HS.
have E : inner S (eta^T *m (B *m x)) = inner (B *m x *m S) eta.
  by rewrite /inner HS -[LHS]mxtrace_tr !trM !trmxK HS [LHS]mxtrace_mulC !mulmxA.
have F : inner S (x^T *m (B *m eta)) = inner (B *m x *m S) eta.
  by rewrite -inner_tr HS !trM trmxK HB -mulmxA -E.
by rewrite innerDr E F; move: (inner _ _) => u; rng R.
Qed.
Lemma quad_sym (B : 'M[R]_n) x : symmetric B -> symmetric (x^T *m (B *m x)).
Proof. by move=> HB; rewrite /symmetric !trM trmxK HB mulmxA. Qed.
Lemma ly_gradient x : is_gradient (@inner R n p) (value ly) x (egrad ly x).
Proof.
apply: grad_poly => eta.
exists (inner (eta^T *m (A *m x) + x^T *m (A *m eta)) (eta^T *m (M *m x) + x^T *m (M *m eta)) +
  inner (x^T *m (A *m x)) (eta^T *m (M *m eta)) + inner (eta^T *m (A *m eta)) (x^T *m (M *m x)) -
  inner (C^T *m eta) (C^T *m eta)),
 (inner (eta^T *m (A *m x) + x^T *m (A *m eta)) (eta^T *m (M *m eta)) +
  inner (eta^T *m (A *m eta)) (eta^T *m (M *m x) + x^T *m (M *m eta))),
 (inner (eta^T *m (A *m eta)) (eta^T *m (M *m eta))) => t.
rewrite !ly_value !quad_expand ly_egrad.
have H1 := inner_swap x eta HM (quad_sym x HA).
have H2 := inner_swap x eta HA (quad_sym x HM).
have H3 : inner (C *m (C^T *m x)) eta = inner (C^T *m x) (C^T *m eta) by rewrite inner_mull.
move: H1 H2 H3.
set a0 := x^T *m (A *m x); set m0 := x^T *m (M *m x).
set a1 := eta^T *m (A *m x) + _; set m1 := eta^T *m (M *m x) + _.
set a2 := eta^T *m (A *m eta); set m2 := eta^T *m (M *m eta).
clearbody a0 m0 a1 m1 a2 m2.
set c0 := C^T *m x; set c1 := C^T *m eta.
have -> : C^T *m (x + t *: eta) = c0 + t *: c1 by rewrite mulmxDr mulZr.
clearbody c0 c1 => H1 H2 H3.
rewrite innerZl !innerDl innerNl H3.
rewrite !(innerDl, innerDr) !innerZl !innerZr H1 (innerC a1 m0) H2 (innerC c1 c0).
by rewrite !exprS !expr0; rng R.
Qed.
Lemma ly_hessian x eta : is_derivative (@inner R n p) (egrad ly) x eta (ehess ly x eta).
Proof.
apply: der_poly; first exact: inner_bilinear.
pose a1 := eta^T *m (A *m x) + x^T *m (A *m eta); pose m1 := eta^T *m (M *m x) + x^T *m (M *m eta).
pose a2 := eta^T *m (A *m eta); pose m2 := eta^T *m (M *m eta).
exists (2%:R *: (A *m eta *m m1 + A *m x *m m2 + M *m eta *m a1 + M *m x *m a2)),
  (2%:R *: (A *m eta *m m2 + M *m eta *m a2)) => t.
rewrite !ly_egrad ly_ehess !quad_expand -/a1 -/m1 -/a2 -/m2.
have E1 : (x^T *m (M *m eta))^T = m1 - x^T *m (M *m eta) by rewrite /m1 addrK !trM trmxK HM mulmxA.
have E2 : (x^T *m (A *m eta))^T = a1 - x^T *m (A *m eta) by rewrite /a1 addrK !trM trmxK HA mulmxA.
rewrite E1 E2; clear E1 E2; clearbody a1 m1 a2 m2.
move: (x^T *m (M *m x)) (x^T *m (A *m x)) (x^T *m (M *m eta)) (x^T *m (A *m eta)) => m0 a0 mx ax.
by rewrite !exprS !expr0; mxz; mxlin R; rng R.
Qed.
End lyapunov.

Section completion.
Variable R : rcfType.
Add Field completion_field : (rcf_field R).
Variables (m n r nz : nat) (ir : 'I_nz -> 'I_m) (jc : 'I_nz -> 'I_n) (vals : 'rV[R]_nz).
Local Notation mc := (mat_completion r ir jc vals).
Local Notation po := (project_omega ir jc).
Local Notation sp := (sparse_of ir jc).
Implicit Types (G dG : 'M[R]_(m, r)) (H dH : 'M[R]_(n, r)).
Lemma poE G H t : po G H 0 t = (G *m H^T) (ir t) (jc t).
Proof. by rewrite !mxE; apply: eq_bigr => j _; rewrite !mxE. Qed.
Lemma po_row G H : po G H = \row_t (G *m H^T) (ir t) (jc t).
Proof. by apply/rowP => t; rewrite poE [RHS]mxE. Qed.
Lemma po_adjoint (S : 'rV[R]_nz) G H : inner (sp S) (G *m H^T) = inner S (po G H).
Proof.
rewrite -!dotE /dot big_ord1.
have -> : \sum_i \sum_j sp S i j * (G *m H^T) i j = \sum_i \sum_j \sum_t (if (ir t == i) && (jc t == j) then S 0 t * po G H 0 t else 0).
  apply: eq_bigr => i _; apply: eq_bigr => j _; rewrite [sp S i j]mxE mulr_suml -big_mkcond /=.
  by apply: eq_bigr => t /andP[/eqP <- /eqP <-]; rewrite poE.
rewrite (eq_bigr (fun i => \sum_t \sum_j (if (ir t == i) && (jc t == j) then S 0 t * po G H 0 t else 0))); last by move=> i _; rewrite exchange_big.
rewrite exchange_big /=; apply: eq_bigr => t _.
rewrite (bigD1 (ir t)) //= (bigD1 (jc t)) //= !eqxx /= big1 ?addr0; last by move=> j Hj; rewrite eq_sym (negbTE Hj).
rewrite big1 ?addr0 // => i Hi; apply: big1 => j _.
by rewrite eq_sym (negbTE Hi).
Qed.
Lemma po_expand G dG H dH (t : R) : po (G + t *: dG) (H + t *: dH) = po G H + t *: (po dG H + po G dH) + t ^+ 2 *: po dG dH.
Proof.
rewrite !po_row !expr2; have -> : (G + t *: dG) *m (H + t *: dH)^T = G *m H^T + t *: (dG *m H^T) + t *: (G *m dH^T) + t *: (t *: (dG *m dH^T)).
  by mxz; mxlin R; rng R.
by apply/rowP => k; rewrite !mxE; rng R.
Qed.
Lemma spD u v : sp (u + v) = sp u + sp v :> 'M[R]_(m, n).
Proof. by apply/matrixP => i j; rewrite !mxE -big_split /=; apply: eq_bigr => t _; rewrite mxE. Qed.
Lemma spZ (a : R) v : sp (a *: v) = a *: sp v.
Proof. by apply/matrixP => i j; rewrite !mxE mulr_sumr; apply: eq_bigr => t _; rewrite mxE. Qed.
Lemma mc_value x : value mc x = half R * inner (po x.1 x.2 - vals) (po x.1 x.2 - vals).
Proof. by rewrite /value /= dotE scaleN1r addrC. Qed.
Lemma mc_doc x : value mc x = half R * \sum_t ((x.1 *m x.2^T) (ir t) (jc t) - vals 0 t) ^+ 2.
Proof.
rewrite mc_value -dotE /dot big_ord1; congr (_ * _); apply: eq_bigr => t _.
by rewrite !expr2 -poE; move: (po _ _) => M; rewrite !mxE.
Qed.
Lemma mc_egrad x : egrad mc x = (sp (po x.1 x.2 - vals) *m x.2, (sp (po x.1 x.2 - vals))^T *m x.1).
Proof. by rewrite /egrad /= scaleN1r addrC trM trmxK. Qed.
Lemma mc_gradient x : is_gradient (@inner2 R m r n r) (value mc) x (egrad mc x).
Proof.
case: x => G H; apply: grad_poly => -[dG dH].
pose v0 := po G H - vals; pose v1 := po dG H + po G dH; pose v2 := po dG dH.
exists (half R * (inner v1 v1 + (inner v0 v2 + inner v0 v2))), (inner v1 v2), (half R * inner v2 v2) => t.
rewrite !mc_value mc_egrad /inner2 /= po_expand.
have -> : inner (sp (po G H - vals) *m H) dG = inner v0 (po dG H).
  by rewrite inner_mulr -po_adjoint.
have -> : inner ((sp (po G H - vals))^T *m G) dH = inner v0 (po G dH).
  by rewrite inner_mull trmxK -po_adjoint innerC inner_mulr innerC.
rewrite -innerDr -/v1 -/v2 [X in inner X X](_ : _ = v0 + t *: v1 + t ^+ 2 *: v2); last by rewrite /v0 -/v1 -/v2 addrAC (addrAC (po G H)).
rewrite -/v0; clearbody v0 v1 v2.
rewrite !(innerDl, innerDr) !innerZl !innerZr (innerC v1 v0) (innerC v2 v0) (innerC v2 v1).
rewrite !exprS !expr0 /half; move: (inner v0 v0) (inner v0 v1) (inner v0 v2) (inner v1 v1) (inner v1 v2) (inner v2 v2) => i0 i1 i2 i3 i4 i5.
by fld R.
Qed.
Lemma mc_ehess G H dG dH : ehess mc (G, H) (dG, dH) =
  (sp (po dG H + po G dH) *m H + sp (po G H - vals) *m dH,
   (sp (po dG H + po G dH))^T *m G + (sp (po G H - vals))^T *m dG).
Proof. by rewrite /ehess /= scale1r scaleN1r (addrC (- vals)) trD !trM !trmxK. Qed.
Lemma mc_hessian x eta : is_derivative (@inner2 R m r n r) (egrad mc) x eta (ehess mc x eta).
Proof.
case: x eta => [G H] [dG dH]; apply: der_poly; first exact: inner2_bilinear.
pose v0 := po G H - vals; pose v1 := po dG H + po G dH; pose v2 := po dG dH.
exists (sp v2 *m H + sp v1 *m dH, (sp v2)^T *m G + (sp v1)^T *m dG), (sp v2 *m dH, (sp v2)^T *m dG) => t.
rewrite !mc_egrad mc_ehess /= po_expand.
have -> : po G H + t *: (po dG H + po G dH) + t ^+ 2 *: po dG dH - vals = v0 + t *: v1 + t ^+ 2 *: v2.
  by rewrite /v0 /v1 /v2 addrAC (addrAC (po G H)).
rewrite -/v0 -/v1; clearbody v0 v1 v2; rewrite !spD !spZ.
move: (sp v0) (sp v1) (sp v2) => S0 S1 S2; rewrite !exprS !expr0.
by rewrite [RHS]surjective_pairing; congr (_, _) => /=; mxz; mxlin R; rng R.
Qed.
End completion.

Section hull.
Variable R : rcfType.
Add Field hull_field : (rcf_field R).
Variables (d l : nat) (W : 'I_l -> 'cV[R]_d) (Hv : option ('cV[R]_d -> 'cV[R]_d)).
Local Notation P := (apply_Hv Hv).
Hypothesis Plin : forall k u v, P (k *: u + v) = k *: P u + P v.
Hypothesis Pself : forall u v, inner (P u) v = inner u (P v).
Local Notation ch := (convex_hull W Hv).
Implicit Types x y eta : 'cV[R]_l.
Lemma E4 : 4%:R = 2%:R * 2%:R :> R. Proof. by rewrite -natrM. Qed.
Lemma E8 : 8%:R = 2%:R * 2%:R * 2%:R :> R. Proof. by rewrite -!natrM. Qed.
Lemma combineE c : combine W c = \sum_i c i 0 *: W i.
Proof.
have H s a : foldl (fun acc i => c i 0 *: W i + acc) a s = a + \sum_(i <- s) c i 0 *: W i.
  elim: s a => [|i s IH] a /=; first by rewrite big_nil addr0.
  by rewrite big_cons IH addrA (addrC a).
by rewrite /combine H add0r big_enum.
Qed.
Lemma combineL k u v : combine W (k *: u + v) = k *: combine W u + combine W v.
Proof.
rewrite !combineE scaler_sumr -big_split /=; apply: eq_bigr => i _.
by rewrite !mxE scalerDl scalerA.
Qed.
Definition hq u v : R := inner (combine W u) (P (combine W v)).
Lemma hq_bilinear : bilinear hq.
Proof.
split => [u v|a u v w]; first by rewrite /hq -Pself innerC.
by rewrite /hq combineL innerDl innerZl.
Qed.
Lemma hull_expand x eta (t : R) : hadamard (x + t *: eta) (x + t *: eta) =
  hadamard x x + t *: (2%:R *: hadamard x eta) + t ^+ 2 *: hadamard eta eta.
Proof. by apply/colP => i; rewrite !mxE expr2; rng R. Qed.
Lemma ch_value x : value ch x = hq (hadamard x x) (hadamard x x).
Proof. by rewrite /value /= dotE. Qed.
Lemma ch_egrad x : egrad ch x = \col_i (4%:R * x i 0 * inner (W i) (P (combine W (hadamard x x)))).
Proof. by apply/colP => i; rewrite !mxE /= dotE. Qed.
Lemma hull_pair x v eta : inner (\col_i (4%:R * x i 0 * inner (W i) v)) eta = 4%:R * inner (combine W (hadamard x eta)) v.
Proof.
rewrite -dotE /dot combineE.
have -> : inner (\sum_i hadamard x eta i 0 *: W i) v = \sum_i x i 0 * eta i 0 * inner (W i) v.
  elim/big_ind2: _ => [|a b a' b' <- <-|i _]; rewrite ?inner0l ?innerDl // innerZl mxE //.
rewrite mulr_sumr; apply: eq_bigr => i _; rewrite big_ord1 mxE; rng R.
Qed.
Lemma ch_gradient x : is_gradient (@inner R l 1) (value ch) x (egrad ch x).
Proof.
have B := hq_bilinear.
apply: grad_poly => eta.
pose a := hadamard x x; pose b := hadamard x eta; pose c := hadamard eta eta.
exists (4%:R * hq b b + (hq a c + hq a c)), (4%:R * hq b c), (hq c c) => t.
rewrite !ch_value ch_egrad hull_pair -/(hq _ _) hull_expand -/a -/b -/c; clearbody a b c.
rewrite !(ipDl B) !(ipDr B) !(ipZl B) !(ipZr B) (ip_sym B b a) (ip_sym B c a) (ip_sym B c b).
move: (hq a a) (hq a b) (hq a c) (hq b b) (hq b c) (hq c c) => i0 i1 i2 i3 i4 i5.
by rewrite !exprS !expr0 E4; rng R.
Qed.
Lemma ch_ehess x eta : ehess ch x eta = \col_i (4%:R * eta i 0 * inner (W i) (P (combine W (hadamard x x))) +
  8%:R * x i 0 * inner (W i) (P (combine W (hadamard x eta)))).
Proof. by apply/colP => i; rewrite !mxE /= !dotE. Qed.
Lemma PwL k u v : P (combine W (k *: u + v)) = k *: P (combine W u) + P (combine W v).
Proof. by rewrite combineL Plin. Qed.
Lemma ch_hessian x eta : is_derivative (@inner R l 1) (egrad ch) x eta (ehess ch x eta).
Proof.
apply: der_poly; first exact: inner_bilinear.
pose Pw u := P (combine W u).
pose a := hadamard x x; pose b := hadamard x eta; pose c := hadamard eta eta.
exists (\col_i (4%:R * x i 0 * inner (W i) (Pw c) + 8%:R * eta i 0 * inner (W i) (Pw b))),
  (\col_i (4%:R * eta i 0 * inner (W i) (Pw c))) => t.
rewrite !ch_egrad ch_ehess hull_expand -/a -/b -/c.
have -> : P (combine W (a + t *: (2%:R *: b) + t ^+ 2 *: c)) = Pw a + t *: (2%:R *: Pw b) + t ^+ 2 *: Pw c.
  by rewrite addrC PwL -/(Pw c) addrC (addrC a) scalerA PwL -/(Pw a) -/(Pw b) -scalerA (addrC _ (Pw a)).
rewrite -/(Pw a) -/(Pw b); move: (Pw a) (Pw b) (Pw c) => pa pb pc.
apply/colP => i; rewrite !mxE !innerDr !innerZr !exprS !expr0 E4 E8; rng R.
Qed.
End hull.
