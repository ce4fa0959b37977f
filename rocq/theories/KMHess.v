(** The Hessian of the mean is self-adjoint, and that of the affine-invariant metric is bounded below. *)
From mathcomp Require Import all_ssreflect all_algebra.
Require Import Ring Field.
From Verif Require Import MxTac StiefelModel StiefelSpec StiefelProofs StiefelPolar SPDModel SPDSpec SPDProofs Eckart Decomp
  KMModel KMSpec KMFun KMNorm KMProofs KMDeriv KMMean.
Import Order.TTheory GRing.Theory Num.Theory.
Set Implicit Arguments.
Unset Strict Implicit.
Local Open Scope ring_scope.

Section hessian.
Variable R : rcfType.
Add Field kmh_field : (rcf_field R).
Variable n : nat.
Variables (LN : R -> R) (CHOL : 'M[R]_n -> 'M[R]_n) (EIG : 'M[R]_n -> 'M[R]_n * 'rV[R]_n).
Hypotheses (HC : chol_right CHOL) (HE : eig_right EIG).
Implicit Types (x y L D : 'M[R]_n).
Local Notation whit := (whitened CHOL).
Local Notation logm := (log_sym LN EIG).
Local Notation cb := (@congr_by R n).
Local Notation V := (vec_of CHOL EIG).
Local Notation lam := (val_of CHOL EIG).
Local Notation gterm := (gterm LN CHOL EIG).
Local Notation dterm := (dterm LN CHOL EIG).

Lemma divided_sym a b : divided LN a b = divided LN b a.
Proof.
rewrite /divided; case: eqP => [->|H]; first by rewrite eqxx.
case: eqP => [E|_]; first by case: H.
by rewrite -opprB -[a - b]opprB invrN mulrNN.
Qed.
(** Entrywise product in the basis V, in both arguments of the inner product. *)
Definition had (T : 'I_n -> 'I_n -> R) (H : 'M[R]_n) : 'M[R]_n := \matrix_(j, k) (T j k * H j k).
Lemma inner_had T (H K : 'M[R]_n) : inner (had T H) K = \sum_j \sum_k T j k * (H j k * K j k).
Proof. by rewrite inner_sum; apply: eq_bigr => j _; apply: eq_bigr => k _; rewrite mxE mulrA. Qed.
Lemma inner_basis (U X Y : 'M[R]_n) : inner (U *m X *m U^T) Y = inner X (U^T *m Y *m U).
Proof. by rewrite -mulmxA inner_mull inner_mulr trmxK. Qed.
Lemma inner_cb L X D : L \in unitmx -> inner (invmx L^T *m X *m invmx L) D = inner X (cb L D).
Proof. by move=> HU; rewrite -mulmxA inner_mull inner_mulr !trmx_inv trmxK. Qed.
Lemma had_diag T (H : 'M[R]_n) (c : 'rV[R]_n) : had T H *m diag_mx c = had (fun j k => T j k * c 0 k) H.
Proof. by apply/matrixP => j k; rewrite mul_mx_diag !mxE mulrAC. Qed.

Section point.
Variables (x L : 'M[R]_n).
Hypotheses (Hx : posdef x) (HL : sample L).
Let HU := sample_unit HL.
Let U := V x L.
Let l := lam x L.
Let HV : orthonormal U := V_orth HC HE (spp Hx) HL.
Definition rot D := U^T *m cb L D *m U.
Lemma rot_sym D : symmetric D -> symmetric (rot D).
Proof. by move=> HD; rewrite /symmetric /rot trmx_mul [(_ *m cb _ _)^T]trmx_mul trmxK (cb_sym L HD) mulmxA. Qed.
Lemma invx : L^T *m invmx x = U *m diag_mx (map_mx (fun t => t^-1) l) *m U^T *m invmx L.
Proof. by rewrite -(inv_whit HC Hx HL) (fun_inv HC HE (spp Hx) HL). Qed.
Definition dT j k := Zx LN CHOL EIG x L j k * (l 0 k)^-1.
Lemma dterm_inv D : dterm x L D *m invmx x = invmx L^T *m (U *m had dT (rot D) *m U^T) *m invmx L.
Proof.
rewrite /KMDeriv.dterm -mulmxA invx /dk -/(vec_of CHOL EIG x L) -/U -/(rot D) -/(had _ _) !mulmxA.
congr (_ *m _ *m _); rewrite -[_ *m U^T *m U]mulmxA HV mulmx1 -[_ *m had _ _ *m diag_mx _]mulmxA had_diag.
by congr (_ *m _); apply/matrixP => j k; rewrite !mxE.
Qed.
Lemma dterm_inner D1 D2 : inner (dterm x L D1 *m invmx x) D2 = \sum_j \sum_k dT j k * (rot D1 j k * rot D2 j k).
Proof. by rewrite dterm_inv inner_cb // inner_basis inner_had. Qed.
Definition gT (j k : 'I_n) : R := LN (l 0 j) / l 0 j * (l 0 k)^-1.
Lemma gterm_inv D : gterm x L *m D *m invmx x = invmx L^T *m (U *m had gT (rot D) *m U^T) *m invmx L.
Proof.
have E : D = L *m cb L D *m L^T.
  by rewrite /congr_by !mulmxA mulmxV // mul1mx -mulmxA mulVmx ?unitmx_tr // mulmx1.
have E2 : D *m invmx x = L *m cb L D *m (U *m diag_mx (map_mx (fun t => t^-1) l) *m U^T *m invmx L).
  by rewrite -invx {1}E -mulmxA.
have -> : had gT (rot D) = diag_mx (map_mx (dpsi LN) l) *m rot D *m diag_mx (map_mx (fun t => t^-1) l).
  by apply/matrixP => j k; rewrite mul_mx_diag mul_diag_mx !mxE /gT /dpsi mulrAC.
rewrite (gtermE LN HC HE Hx HL) -mulmxA E2 /fun_mx -/U -/l /rot; move: (cb L D) => C.
by rewrite !mulmxA -[_ *m invmx L *m L]mulmxA mulVmx // mulmx1.
Qed.
Lemma gterm_inner D1 D2 : inner (gterm x L *m D1 *m invmx x) D2 = \sum_j \sum_k gT j k * (rot D1 j k * rot D2 j k).
Proof. by rewrite gterm_inv inner_cb // inner_basis inner_had. Qed.
Lemma lpos i : 0 < l 0 i. Proof. exact: (lam_pos HC HE (spp Hx) HL). Qed.
Lemma T_sym j k : dT j k - gT j k = dT k j - gT k j.
Proof.
rewrite /dT /gT /Zx -/l divided_sym /divided; have Hj := lpos j; have Hk := lpos k.
case: eqP => [->|/eqP Hn]; first by [].
move: Hj Hk Hn; move: (l 0 j) (l 0 k) (LN _) (LN _) => a b la lb Ha Hb Hn.
have Ha0 : a <> 0 by move=> E; rewrite E ltxx in Ha.
have Hb0 : b <> 0 by move=> E; rewrite E ltxx in Hb.
have H1 : b - a <> 0 by move/eqP; rewrite subr_eq0 (negbTE Hn).
have H2 : a - b <> 0 by move/eqP; rewrite subr_eq0 eq_sym (negbTE Hn).
by fld R; repeat split.
Qed.
Lemma term_sym D : symmetric D -> symmetric (dterm x L D *m invmx x - gterm x L *m D *m invmx x).
Proof.
move=> HD; rewrite dterm_inv gterm_inv -mulmxBl -mulmxBr -mulmxBl -mulmxBr.
have := rot_sym HD; move: (rot D) => H HH.
have HS : symmetric (had dT H - had gT H).
  have Hs a b : H a b = H b a by rewrite -{1}HH mxE.
  by apply/matrixP => j k; rewrite !mxE -[_ - _]mulrBl -[X in _ = X]mulrBl T_sym (Hs j k).
move: (had dT H - had gT H) HS => S HS.
by rewrite /symmetric !trmx_mul !trmxK HS !trmx_inv trmxK !mulmxA.
Qed.
Lemma metric_term D1 D2 : inner (invmx x *m D1 *m invmx x) D2 = \sum_j \sum_k ((l 0 j)^-1 * (l 0 k)^-1) * (rot D1 j k * rot D2 j k).
Proof.
have E : D1 = L *m cb L D1 *m L^T.
  by rewrite /congr_by !mulmxA mulmxV // mul1mx -mulmxA mulVmx ?unitmx_tr // mulmx1.
have Hxs : x^T = x by case: Hx.
have invxl : invmx x *m L = invmx L^T *m (U *m diag_mx (map_mx (fun t => t^-1) l) *m U^T).
  by apply: trmx_inj; rewrite trmx_mul trmx_inv Hxs invx !trmx_mul tr_diag_mx !trmx_inv !trmxK !mulmxA.
have E3 : invmx x *m D1 *m invmx x = invmx x *m L *m cb L D1 *m (L^T *m invmx x).
  by rewrite {1}E; move: (cb L D1) => C; rewrite !mulmxA.
rewrite E3 invxl invx.
have -> : invmx L^T *m (U *m diag_mx (map_mx (fun t => t^-1) l) *m U^T) *m cb L D1 *m
  (U *m diag_mx (map_mx (fun t => t^-1) l) *m U^T *m invmx L) =
  invmx L^T *m (U *m had (fun j k => (l 0 j)^-1 * (l 0 k)^-1) (rot D1) *m U^T) *m invmx L.
  have -> : had (fun j k => (l 0 j)^-1 * (l 0 k)^-1) (rot D1) =
     diag_mx (map_mx (fun t => t^-1) l) *m rot D1 *m diag_mx (map_mx (fun t => t^-1) l).
    by apply/matrixP => j k; rewrite mul_mx_diag mul_diag_mx !mxE mulrAC.
  by rewrite /rot; move: (cb L D1) => C; rewrite !mulmxA.
by rewrite inner_cb // inner_basis inner_had.
Qed.
Hypothesis log_mean : forall a b, 0 < a -> 0 < b -> 2%:R <= divided LN a b * (a + b).
Lemma term_convex D : symmetric D -> inner (invmx x *m D *m invmx x) D <= inner (dterm x L D *m invmx x) D.
Proof.
move=> HD; rewrite dterm_inner metric_term.
have Hsym j k : rot D j k = rot D k j by have := rot_sym HD; rewrite /symmetric => E; rewrite -{1}E mxE.
have E : \sum_j \sum_k dT j k * (rot D j k * rot D j k) = \sum_j \sum_k dT k j * (rot D j k * rot D j k).
  by rewrite exchange_big /=; apply: eq_bigr => j _; apply: eq_bigr => k _; rewrite (Hsym k j).
set S := \sum_j \sum_k dT j k * _ in E *.
have H2 : (0 : R) < 2%:R by rewrite ltr0n.
rewrite -(ler_pmul2r H2) [S * _]mulr_natr [S *+ 2]mulr2n {2}E /S -big_split mulr_suml /=; apply: ler_sum => j _.
rewrite -big_split mulr_suml /=; apply: ler_sum => k _.
rewrite -mulrDl mulrAC ler_wpmul2r // -?expr2 ?sqr_ge0 //.
have Hj := lpos j; have Hk := lpos k.
rewrite /dT /Zx -/l (divided_sym (l 0 k)) -mulrDr -invfM mulrC ler_pdivr_mulr ?mulr_gt0 //.
apply: le_trans (log_mean Hj Hk) _; rewrite -mulrA le_eqVlt; apply/orP; left; apply/eqP; congr (_ * _).
by rewrite mulrDl mulrCA mulVf ?mulr1 ?gt_eqF // mulKf ?gt_eqF // addrC.
Qed.
End point.

Variables (x : 'M[R]_n) (Ls : seq 'M[R]_n).
Hypotheses (Hx : posdef x) (HLs : forall L, L \in Ls -> sample L) (Hne : Ls != [::]).
Let num : R := (size Ls)%:R.
Local Notation G := (egrad LN CHOL EIG Ls x).
Lemma hess_sum D : ehess LN CHOL EIG Ls x G D =
  num^-1 *: \sum_(L <- Ls) (dterm x L D *m invmx x - gterm x L *m D *m invmx x).
Proof.
rewrite (ehessE LN CHOL EIG x HLs) /dsum -/num (egrad_sum LN EIG HC HLs Hx) -/num.
rewrite -scalemxAl -scalerBr -scalemxAl; congr (_ *: _).
by rewrite mulmx_suml -sumrB mulmx_suml; apply: eq_bigr => L _; rewrite mulmxBl.
Qed.
Lemma hess_self D1 D2 : inner (ehess LN CHOL EIG Ls x G D1) D2 = inner D1 (ehess LN CHOL EIG Ls x G D2).
Proof.
rewrite [RHS]innerC !hess_sum !innerZl !inner_suml; congr (_ * _); apply: eq_big_seq => L HL; have HL' := HLs HL.
rewrite !innerBl !(dterm_inner Hx HL') !(gterm_inner Hx HL').
by congr (_ - _); apply: eq_bigr => j _; apply: eq_bigr => k _; congr (_ * _); rewrite mulrC.
Qed.
Lemma hess_sym D : symmetric D -> symmetric (ehess LN CHOL EIG Ls x G D).
Proof.
move=> HD; rewrite hess_sum /symmetric linearZ /= linear_sum /=; congr (_ *: _).
by apply: eq_big_seq => L HL; have := term_sym Hx (HLs HL) HD; rewrite /symmetric => ->.
Qed.
Hypothesis log_mean : forall a b, 0 < a -> 0 < b -> 2%:R <= divided LN a b * (a + b).
Lemma hess_convex D : symmetric D ->
  metric_af x D D <= metric_af x (hess_af x G D (ehess LN CHOL EIG Ls x G D)) D.
Proof.
move=> HD; rewrite /metric_af !dotE.
have Hxs : x^T = x by case: Hx.
have Hgs := egrad_sym LN HC HE HLs Hx; have HxU := posdef_unit Hx.
have -> : inner (invmx x *m hess_af x G D (ehess LN CHOL EIG Ls x G D) *m invmx x) D =
  num^-1 * \sum_(L <- Ls) inner (dterm x L D *m invmx x) D.
  have Eh := ehessE LN CHOL EIG x HLs G D.
  have -> : num^-1 * (\sum_(L <- Ls) inner (dterm x L D *m invmx x) D) =
     inner (ehess LN CHOL EIG Ls x G D) D + inner (G *m D *m invmx x) D.
    rewrite -innerDl Eh mulmxBl subrK /dsum -/num -scalemxAl innerZl mulmx_suml.
    by rewrite inner_suml.
  move: (ehess LN CHOL EIG Ls x G D) (egrad LN CHOL EIG Ls x) Hgs => H g Hg.
  rewrite /hess_af mulmxDr mulmxDl innerDl !mulmxA mulVmx // mul1mx -mulmxA mulmxV // mulmx1; congr (_ + _).
  rewrite -scalemxAr -scalemxAl innerZl mulmxDr mulmxDl innerDl !trmx_mul HD Hg Hxs !mulmxA mulVmx // mul1mx.
  have -> : inner (invmx x *m D *m g *m x *m invmx x) D = inner (g *m D *m invmx x) D.
    by rewrite -[_ *m x *m invmx x]mulmxA mulmxV // mulmx1 -inner_tr !trmx_mul HD Hg trmx_inv Hxs mulmxA.
  by rewrite -mulr2n -[inner _ _ *+ 2]mulr_natl mulKf ?pnatr_eq0.
have Hn : 0 < num := num_gt0 Hne.
rewrite mulrC ler_pdivl_mulr //.
have -> : inner (invmx x *m D *m invmx x) D * num = \sum_(L <- Ls) inner (invmx x *m D *m invmx x) D.
  by rewrite big_const_seq count_predT iter_addr_0 mulr_natr.
rewrite big_seq [X in _ <= X]big_seq; apply: ler_sum => L HL.
exact: (term_convex Hx (HLs HL) log_mean HD).
Qed.
End hessian.
