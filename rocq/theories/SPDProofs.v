(** Proofs about the manifold of symmetric positive definite matrices. *)
From mathcomp Require Import all_ssreflect all_algebra.
Require Import Ring Field.
From Verif Require Import MxTac StiefelModel StiefelSpec StiefelProofs StiefelIntr SPDModel SPDSpec.
Import Order.TTheory GRing.Theory Num.Theory.
Set Implicit Arguments.
Unset Strict Implicit.
Local Open Scope ring_scope.

Section base.
Variable R : rcfType.
Add Field spd_field : (rcf_field R).
Variable n : nat.
Local Notation ext := 'M[R]_n.
Implicit Types x y L eta xi S V : ext.

Lemma inv_uniq (A B : ext) : A *m B = 1%:M -> invmx A = B.
Proof. by move=> H; have [HA _] := mulmx1_unit H; rewrite -[LHS]mulmx1 -H mulmxA mulVmx // mul1mx. Qed.
Lemma chol_unit x L : is_chol x L -> L \in unitmx.
Proof.
case=> _ Hl Hd; rewrite unitmxE det_trig ?unitfE; last by apply/is_trig_mxP.
by apply/prodf_neq0 => i _; rewrite gt_eqF.
Qed.
Lemma gemm0E p q r (A : 'M[R]_(p, q)) (B : 'M[R]_(q, r)) c : gemm0 c A B = c *: (A *m B).
Proof. by rewrite /gemm0. Qed.

Section chol.
Variables x L : ext.
Hypothesis Hc : is_chol x L.
Local Notation Li := (invmx L).
Lemma LLi : L *m Li = 1%:M.
Proof. exact: (mulmxV (chol_unit Hc)). Qed.
Lemma LiL : Li *m L = 1%:M.
Proof. exact: (mulVmx (chol_unit Hc)). Qed.
Lemma LTLiT : L^T *m Li^T = 1%:M.
Proof. by rewrite -trM LiL trmx1. Qed.
Lemma LiTLT : Li^T *m L^T = 1%:M.
Proof. by rewrite -trM LLi trmx1. Qed.
Lemma xE : x = L *m L^T.
Proof. by case: Hc. Qed.
Lemma x_sym : symmetric x.
Proof. by rewrite /symmetric xE trM trmxK. Qed.
Lemma xiE : invmx x = Li^T *m Li.
Proof. by apply: inv_uniq; rewrite xE mulmxA -[L *m L^T *m _]mulmxA LTLiT mulmx1 LLi. Qed.
Lemma xVx : invmx x *m x = 1%:M.
Proof. by rewrite xiE xE mulmxA -[_ *m Li *m L]mulmxA LiL mulmx1 LiTLT. Qed.
Lemma xxV : x *m invmx x = 1%:M.
Proof. by rewrite xiE xE mulmxA -[L *m L^T *m _]mulmxA LTLiT mulmx1 LLi. Qed.
Lemma xV_sym : symmetric (invmx x).
Proof. by rewrite /symmetric xiE trM trmxK. Qed.

Lemma whitenE eta : symmetric eta -> whiten L eta = Li *m eta *m Li^T.
Proof. by move=> H; rewrite /whiten /tri_sol trM H mulmxA. Qed.
Lemma whiten_sym eta : symmetric eta -> symmetric (whiten L eta).
Proof. by move=> H; rewrite /symmetric whitenE // !trM trmxK H mulmxA. Qed.
Lemma unwhiten eta : symmetric eta -> L *m whiten L eta *m L^T = eta.
Proof.
move=> H; rewrite whitenE // !mulmxA LLi mul1mx -mulmxA LiTLT mulmx1 //.
Qed.
Lemma rewhiten S : symmetric S -> whiten L (L *m S *m L^T) = S.
Proof.
move=> H; rewrite whitenE; last by rewrite /symmetric !trM trmxK H mulmxA.
by rewrite !mulmxA LiL mul1mx -mulmxA LTLiT mulmx1.
Qed.
Lemma af_whiten eta xi : symmetric eta -> symmetric xi -> af x eta xi = inner (whiten L eta) (whiten L xi).
Proof.
move=> He Hx; rewrite /af /inner (whiten_sym He) !whitenE // xiE.
by rewrite -!mulmxA [LHS]mxtrace_mulC -!mulmxA.
Qed.
Lemma metric_afE eta xi : symmetric eta -> metric_af x eta xi = af x eta xi.
Proof. by move=> He; rewrite /metric_af dotE /inner /af !trM He xV_sym !mulmxA. Qed.
Lemma metric_pos eta : symmetric eta -> 0 <= af x eta eta /\ (af x eta eta = 0 -> eta = 0).
Proof.
move=> He; rewrite af_whiten //; split; first exact: inner_ge0.
by move=> /inner_eq0 E; rewrite -(unwhiten He) E mulmx0 mul0mx.
Qed.
Lemma grad_afE egf : grad_af x egf = x *m egf *m x.
Proof. by rewrite /grad_af !gemm0E !scale1r x_sym. Qed.
Lemma grad_af_rep egf xi : metric_af x (grad_af x egf) xi = inner egf xi.
Proof.
rewrite grad_afE /metric_af dotE; congr inner.
by rewrite !mulmxA xVx mul1mx -mulmxA xxV mulmx1.
Qed.
Lemma grad_af_sym egf : symmetric egf -> symmetric (grad_af x egf).
Proof. by move=> H; rewrite /symmetric grad_afE !trM x_sym H mulmxA. Qed.
Lemma hess_afE G eta e : symmetric G -> symmetric eta ->
  hess_af x G eta e = x *m e *m x + (2%:R)^-1 *: (x *m G *m eta + eta *m G *m x).
Proof. by move=> HG He; rewrite /hess_af !trM x_sym HG He !mulmxA. Qed.
Lemma hess_af_sym G eta e : symmetric G -> symmetric eta -> symmetric e -> symmetric (hess_af x G eta e).
Proof.
move=> HG He He'; rewrite hess_afE // /symmetric trD trZ trD !trM x_sym HG He He' !mulmxA.
by rewrite [X in _ *: X]addrC.
Qed.
(** The covariant derivative of the gradient field. *)
Lemma hess_af_derivative G dG eta : symmetric G -> symmetric dG -> symmetric eta -> exists D E F,
  (forall t : R, grad_af (x + t *: eta) (G + t *: dG) = grad_af x G + t *: D + t ^+ 2 *: E + t ^+ 3 *: F) /\
  hess_af x G eta dG = D - (2%:R)^-1 *: (eta *m invmx x *m grad_af x G + grad_af x G *m invmx x *m eta).
Proof.
move=> HG HdG He.
exists (eta *m G *m x + x *m dG *m x + x *m G *m eta),
  (eta *m dG *m x + eta *m G *m eta + x *m dG *m eta), (eta *m dG *m eta); split=> [t|].
  have Hs : (x + t *: eta)^T = x + t *: eta by rewrite trD trZ x_sym He.
  rewrite grad_afE /grad_af !gemm0E !scale1r Hs !(mulmxDl, mulmxDr, mulZl, mulZr, scalerDr, scalerA).
  by mxlin R; rewrite ?exprS ?expr0 ?mulr1; rng R.
rewrite hess_afE // grad_afE.
have -> : eta *m invmx x *m (x *m G *m x) = eta *m G *m x.
  by rewrite !mulmxA -[eta *m invmx x *m x]mulmxA xVx mulmx1.
have -> : x *m G *m x *m invmx x *m eta = x *m G *m eta.
  by rewrite -[x *m G *m x *m invmx x]mulmxA xxV mulmx1.
move: (x *m G *m eta) (eta *m G *m x) (x *m dG *m x) => A B C.
by mxlin R; fld R.
Qed.
Lemma hess_af_self G eta xi e f : symmetric G -> symmetric eta -> symmetric xi -> symmetric e -> symmetric f ->
  inner e xi = inner f eta ->
  metric_af x (hess_af x G eta e) xi = metric_af x (hess_af x G xi f) eta.
Proof.
move=> HG He Hx He' Hf' E.
have M (a b g : ext) : symmetric a -> symmetric b -> symmetric g ->
    metric_af x (hess_af x G a g) b = inner g b + (2%:R)^-1 * (\tr (G *m a *m invmx x *m b) + \tr (G *m b *m invmx x *m a)).
  move=> Ha Hb Hg; rewrite metric_afE; last exact: hess_af_sym.
  rewrite hess_afE // /af; rewrite !(mulmxDl, mulmxDr, mulZl, mulZr) !mxtraceD mxtraceZ mxtraceD.
  congr (_ + _ * _).
    by rewrite /inner Hg !mulmxA xVx mul1mx -[g *m x *m _]mulmxA xxV mulmx1.
  rewrite !mulmxA xVx mul1mx; congr (_ + _).
  rewrite -[_ *m x *m invmx x]mulmxA xxV mulmx1 -!mulmxA.
  by rewrite [LHS]mxtrace_mulC -!mulmxA [LHS]mxtrace_mulC -!mulmxA.
rewrite !M // E; congr (_ + _ * _); exact: addrC.
Qed.

(** The second-order retraction. *)
Lemma secordE eta : symmetric eta ->
  secord_retr x L eta = x + eta + half R *: (eta *m invmx x *m eta).
Proof.
by move=> He; rewrite /secord_retr /tri_sol gemm0E !scale1r trM He xiE !mulmxA addrA. Qed.
Lemma quad (m : nat) (M : 'M[R]_(m, n)) (v : 'cV[R]_n) : (v^T *m (M^T *m M) *m v) 0 0 = inner (M *m v) (M *m v).
Proof. by rewrite /inner trM /mxtrace big_ord_recl big_ord0 addr0 !mulmxA. Qed.
Lemma quad_unit (M : ext) (v : 'cV[R]_n) : M \in unitmx -> v != 0 -> 0 < inner (M *m v) (M *m v).
Proof.
move=> HM Hv; rewrite lt_neqAle inner_ge0 andbT eq_sym; apply/eqP => /inner_eq0 E.
by move: Hv; rewrite -[v]mul1mx -(mulVmx HM) -mulmxA E mulmx0 eqxx.
Qed.
Lemma chol_posdef : posdef x.
Proof.
split=> [|v Hv]; first exact: x_sym.
by rewrite xE -{1}[L]trmxK quad quad_unit // unitmx_tr (chol_unit Hc).
Qed.
Lemma secord_square eta : symmetric eta ->
  secord_retr x L eta = half R *: (L *m L^T + (Li *m (x + eta))^T *m (Li *m (x + eta))).
Proof.
move=> He; rewrite secordE //.
have E : (Li *m (x + eta))^T *m (Li *m (x + eta)) = x + eta + eta + eta *m invmx x *m eta.
  rewrite trM trD x_sym He !mulmxA -[_ *m Li^T *m Li]mulmxA -xiE mulmxDl xxV !mulmxDr !mulmxDl mul1mx.
  by rewrite -[eta *m invmx x *m x]mulmxA xVx mulmx1 mul1mx !addrA.
rewrite E -xE; move: (eta *m invmx x *m eta) => A.
by mxlin R; rewrite /half; fld R.
Qed.
Lemma half_gt0 : 0 < half R.
Proof. by rewrite /half invr_gt0 ltr0n. Qed.
Lemma secord_posdef eta : symmetric eta -> posdef (secord_retr x L eta).
Proof.
move=> He; split=> [|v Hv].
  by rewrite /symmetric secordE // trD trD trZ !trM x_sym He xV_sym mulmxA.
rewrite secord_square // mulZr mulZl mxE mulmxDr mulmxDl mxE.
rewrite -{1}[L]trmxK !quad; apply: mulr_gt0; first exact: half_gt0.
apply: ltr_paddr; first exact: inner_ge0.
by apply: quad_unit; rewrite // unitmx_tr (chol_unit Hc).
Qed.
Lemma secord0 : secord_retr x L 0 = x.
Proof. by rewrite secordE; [rewrite mul0mx mul0mx scaler0 !addr0 | rewrite /symmetric trmx0]. Qed.
Lemma projectionE (A : ext) : spd_projection A = half R *: (A + A^T).
Proof.
apply/matrixP => i j; rewrite !mxE; case: (altP (i =P j)) => [->|_]; first by rewrite /half; fld R.
by case: ifP => _; rng R.
Qed.
Lemma averageE (A : ext) : average A = half R *: (A + A^T).
Proof.
apply/matrixP => i j; rewrite !mxE; case: (altP (i =P j)) => [->|_]; first by rewrite /half; fld R.
by case: ifP => _; rewrite /half; fld R.
Qed.
Lemma diff_secordE eta xi : symmetric eta -> symmetric xi ->
  diff_secord L eta xi = xi + half R *: (eta *m invmx x *m xi + xi *m invmx x *m eta).
Proof.
by move=> He Hx; rewrite /diff_secord /tri_sol projectionE gemm0E !scale1r !trM !trmxK He Hx xiE !mulmxA.
Qed.
Lemma diff_secord_ok eta xi t : symmetric eta -> symmetric xi ->
  secord_retr x L (eta + t *: xi) =
  secord_retr x L eta + t *: diff_secord L eta xi + t ^+ 2 *: (half R *: (xi *m invmx x *m xi)).
Proof.
move=> He Hx; have Hs : symmetric (eta + t *: xi) by rewrite /symmetric trD trZ He Hx.
rewrite !secordE // diff_secordE // !(mulmxDl, mulmxDr, mulZl, mulZr).
by mxlin R; rewrite /half; fld R.
Qed.
Lemma diff_secord_sym eta xi : symmetric eta -> symmetric xi -> symmetric (diff_secord L eta xi).
Proof.
move=> He Hx; rewrite diff_secordE // /symmetric trD trZ trD !trM He Hx xV_sym !mulmxA.
by rewrite [X in _ *: X]addrC.
Qed.

(** The exponential retraction, for any positive function in the place of exp. *)
Section expo.
Variables (EIG : ext -> ext * 'rV[R]_n) (fexp : R -> R).
Lemma exp_symE S : eig_at EIG S -> exp_sym EIG fexp S =
  (EIG S).1 *m diag_mx (\row_j fexp ((EIG S).2 0 j)) *m (EIG S).1^T.
Proof.
rewrite /eig_at /exp_sym; case: (EIG S) => V lam /= _; congr (_ *m _).
by apply/matrixP => i j; rewrite mul_mx_diag !mxE mulrC.
Qed.
(** ExpSym does not depend on the decomposition that LAPACK picks. *)
Lemma eig_fun (f : R -> R) S V W lam mu : is_eig S V lam -> is_eig S W mu ->
  V *m diag_mx (\row_j f (lam 0 j)) *m V^T = W *m diag_mx (\row_j f (mu 0 j)) *m W^T.
Proof.
move=> [EV HV] [EW HW].
have VV : V *m V^T = 1%:M by apply: mulmx1C.
have WW : W *m W^T = 1%:M by apply: mulmx1C.
set U := W^T *m V.
have EU : U *m diag_mx lam = diag_mx mu *m U.
  have : W^T *m (V *m diag_mx lam *m V^T) *m V = W^T *m (W *m diag_mx mu *m W^T) *m V by rewrite -EV EW.
  by rewrite -!mulmxA (HV : V^T *m V = _) mulmx1 [W^T *m (W *m _)]mulmxA (HW : W^T *m W = _) mul1mx !mulmxA.
have FU : U *m diag_mx (\row_j f (lam 0 j)) = diag_mx (\row_j f (mu 0 j)) *m U.
  move: (U) EU => U' EU'; apply/matrixP => i j; have := congr1 (fun A : ext => A i j) EU'.
  rewrite !mul_mx_diag !mul_diag_mx !mxE [in X in X -> _]mulrC.
  case: (altP (U' i j =P 0)) => [->|Hu]; first by move=> _; rewrite !mul0r !mulr0.
  by move/(mulIf Hu) => ->; rewrite mulrC.
have EVU : W *m U = V by rewrite /U mulmxA WW mul1mx.
have UV : U *m V^T = W^T by rewrite /U -mulmxA VV mulmx1.
clearbody U; move: (diag_mx (\row_j f (lam 0 j))) (diag_mx (\row_j f (mu 0 j))) FU => D1 D2 FU.
by rewrite -{1}EVU -[W *m U *m D1]mulmxA FU mulmxA -mulmxA UV.
Qed.
Lemma exp_sym_any S V lam : eig_at EIG S -> is_eig S V lam ->
  exp_sym EIG fexp S = V *m diag_mx (\row_j fexp (lam 0 j)) *m V^T.
Proof. by move=> H H'; rewrite exp_symE //; exact: eig_fun H H'. Qed.
Lemma exp_sym_sym S : eig_at EIG S -> symmetric (exp_sym EIG fexp S).
Proof. by move=> H; rewrite exp_symE // /symmetric !trM trmxK tr_diag_mx mulmxA. Qed.
Lemma exp_retrE eta : symmetric eta -> eig_at EIG (whiten L eta) ->
  exp_retr EIG fexp L eta = L *m exp_sym EIG fexp (whiten L eta) *m L^T.
Proof.
move=> He HE; rewrite /exp_retr averageE !gemm0E !scale1r !trM trmxK exp_sym_sym // mulmxA.
by mxlin R; rewrite /half; fld R.
Qed.
Lemma exp_posdef eta : symmetric eta -> eig_at EIG (whiten L eta) -> (forall a, 0 < fexp a) ->
  posdef (exp_retr EIG fexp L eta).
Proof.
move=> He HE Hf; rewrite exp_retrE //; split.
  by rewrite /symmetric !trM trmxK exp_sym_sym // mulmxA.
move=> v Hv; rewrite exp_symE //.
have [_ HV] := HE; set V := (EIG _).1 in HV *; set lam := (EIG _).2; set d := \row_j _.
set w := (V^T *m L^T) *m v.
have Hw : w != 0.
  apply/eqP => Ew; move: Hv; have HVV : V *m V^T = 1%:M by apply: mulmx1C.
  rewrite -[v]mul1mx -LiTLT -[L^T]mul1mx -HVV -!mulmxA.
  by rewrite [V^T *m _]mulmxA -/w Ew !mulmx0 eqxx.
have -> : v^T *m (L *m (V *m diag_mx d *m V^T) *m L^T) *m v = w^T *m diag_mx d *m w.
  by rewrite /w !trM !trmxK !mulmxA.
clearbody w; rewrite mul_mx_diag !mxE; have [i Hi] : exists i, w i 0 != 0.
  apply/existsP; apply: contraNT Hw; rewrite negb_exists => /forallP H0.
  by apply/eqP/matrixP => i j; rewrite ord1 mxE; apply/eqP; have := H0 i; rewrite negbK.
rewrite (bigD1 i) //=; apply: ltr_paddr.
  apply: sumr_ge0 => j _; rewrite !mxE mulrAC -expr2 mulr_ge0 ?sqr_ge0 // ltW //.
by rewrite !mxE mulrAC -expr2 mulr_gt0 // lt_neqAle sqr_ge0 andbT eq_sym expf_neq0.
Qed.
Lemma eig_const (c : R) V lam : is_eig (c%:M : ext) V lam -> lam = const_mx c.
Proof.
case=> E HV; have HVV : V *m V^T = 1%:M by apply: mulmx1C.
have D : diag_mx lam = c%:M.
  have : V^T *m c%:M *m V = V^T *m (V *m diag_mx lam *m V^T) *m V by rewrite -E.
  rewrite !mulmxA (HV : V^T *m V = _) mul1mx -[diag_mx lam *m _ *m _]mulmxA (HV : V^T *m V = _) mulmx1 => <-.
  by rewrite mul_mx_scalar -scalemxAl (HV : V^T *m V = _) scalemx1.
apply/matrixP => i j; rewrite ord1 mxE; have := congr1 (fun A : ext => A j j) D.
by rewrite !mxE eqxx !mulr1n.
Qed.
Lemma exp0 : eig_at EIG (whiten L 0) -> fexp 0 = 1 -> exp_retr EIG fexp L 0 = x.
Proof.
move=> HE Hf; have H0 : symmetric (0 : ext) by rewrite /symmetric trmx0.
rewrite exp_retrE // exp_symE //; have W0 : whiten L 0 = 0%:M :> ext.
  by rewrite whitenE // mulmx0 mul0mx; apply/matrixP => i j; rewrite !mxE mul0rn.
rewrite W0 in HE *; have El := eig_const HE; have [_ HV] := HE.
rewrite El; set d := \row_j _; have -> : diag_mx d = 1%:M.
  by apply/matrixP => i j; rewrite !mxE Hf.
by rewrite mulmx1 (mulmx1C HV) mulmx1 -xE.
Qed.
Lemma eig_scale c S V lam : is_eig S V lam -> is_eig (c *: S) V (c *: lam).
Proof.
case=> E HV; split=> //; rewrite E scalemxAl scalemxAr; congr (_ *m _ *m _).
by apply/matrixP => i j; rewrite !mxE mulrnAr.
Qed.
Lemma whitenZ c eta : symmetric eta -> whiten L (c *: eta) = c *: whiten L eta.
Proof.
move=> He; rewrite !whitenE //; last by rewrite /symmetric trZ He.
by rewrite mulZr mulZl.
Qed.
(** The curve t -> R(t eta) in the eigenvectors of the one matrix, and its group property. *)
Lemma exp_curve t eta V lam : symmetric eta -> eig_at EIG (whiten L (t *: eta)) ->
  is_eig (whiten L eta) V lam ->
  exp_retr EIG fexp L (t *: eta) = L *m (V *m diag_mx (\row_j fexp (t * lam 0 j)) *m V^T) *m L^T.
Proof.
move=> He HE HV; have Hs : symmetric (t *: eta) by rewrite /symmetric trZ He.
rewrite exp_retrE //; congr (_ *m _ *m _); rewrite whitenZ // in HE *.
rewrite (exp_sym_any HE (eig_scale t HV)); congr (_ *m diag_mx _ *m _).
by apply/matrixP => i j; rewrite !mxE.
Qed.
Lemma exp_group s t eta : symmetric eta ->
  (forall c, eig_at EIG (whiten L (c *: eta))) -> (forall a b, fexp (a + b) = fexp a * fexp b) ->
  exp_retr EIG fexp L (s *: eta) *m invmx x *m exp_retr EIG fexp L (t *: eta) =
  exp_retr EIG fexp L ((s + t) *: eta).
Proof.
move=> He HE Hf; have HV := HE 1; rewrite scale1r in HV.
have [_ Ho] := HV; rewrite !(exp_curve He (HE _) HV).
set V := (EIG _).1 in Ho *; set lam := (EIG _).2.
set d1 := \row_j fexp (s * _); set d2 := \row_j fexp (t * _); set d3 := \row_j _.
have -> : d3 = \row_j (d1 0 j * d2 0 j).
  by apply/matrixP => i j; rewrite !mxE mulrDl Hf.
rewrite xiE; set A := V *m diag_mx d1 *m V^T; set B := V *m diag_mx d2 *m V^T.
have -> : L *m A *m L^T *m (Li^T *m Li) *m (L *m B *m L^T) = L *m (A *m B) *m L^T.
  move: (A) (B) => A' B'; rewrite -!mulmxA; congr (L *m (A' *m _)).
  by rewrite [L^T *m (Li^T *m _)]mulmxA LTLiT mul1mx [Li *m (L *m _)]mulmxA LiL mul1mx.
congr (_ *m _ *m _); rewrite /A /B -!mulmxA; congr (V *m _).
rewrite [V^T *m (V *m _)]mulmxA (Ho : V^T *m V = _) mul1mx mulmxA; congr (_ *m _).
apply/matrixP => i j; rewrite mul_mx_diag !mxE; case: (altP (i =P j)) => [->|_]; first by rewrite !mulr1n.
by rewrite !mulr0n mul0r.
Qed.
Lemma dist_self : eig_at EIG 1%:M -> dist_af EIG L L = Num.sqrt n%:R.
Proof.
move=> HE; rewrite /dist_af /tri_sol LiL gemm0E scale1r trmx1 mulmx1.
rewrite (eig_const HE) dotE -dotE /dot; congr Num.sqrt.
rewrite big_ord_recl big_ord0 addr0.
by rewrite (eq_bigr (fun=> 1)) ?sumr_const ?card_ord // => i _; rewrite !mxE mulr1.
Qed.
Lemma par_zero eta xi : par_translation EIG fexp L eta xi = 0.
Proof. by rewrite /par_translation !gemm0E scale0r mul0mx scaler0. Qed.
End expo.
End chol.

(** The Euclidean distance. *)
Lemma cauchy (A B : ext) : inner A B ^+ 2 <= inner A A * inner B B.
Proof.
case: (altP (inner B B =P 0)) => [E|HB].
  by rewrite (inner_eq0 E) inner0r expr2 mul0r inner0r mulr0.
have PB : 0 < inner B B by rewrite lt_neqAle eq_sym HB inner_ge0.
have := inner_ge0 (inner B B *: A - inner A B *: B).
rewrite innerBl !innerBr !innerZl !innerZr [inner B A]innerC.
have -> : inner B B * (inner B B * inner A A) - inner B B * (inner A B * inner A B) -
   (inner A B * (inner B B * inner A B) - inner A B * (inner A B * inner B B)) =
   inner B B * (inner A A * inner B B - inner A B ^+ 2) by move: (inner B B) (inner A B) (inner A A) => a b c; rng R.
by rewrite pmulr_rge0 // subr_ge0.
Qed.
Lemma dist_euc_zero (a b : ext) : dist_euc a b = 0 <-> a = b.
Proof.
rewrite /dist_euc dotE; split=> [/eqP|->]; last by rewrite subrr inner0r sqrtr0.
rewrite sqrtr_eq0 => H; apply/eqP; rewrite -subr_eq0; apply/eqP/inner_eq0.
by apply/eqP; rewrite eq_le H inner_ge0.
Qed.
Lemma dist_euc_sym (a b : ext) : dist_euc a b = dist_euc b a.
Proof. by rewrite /dist_euc !dotE -opprB innerNl innerNr opprK. Qed.
Lemma norm_triangle (A B : ext) :
  Num.sqrt (inner (A + B) (A + B)) <= Num.sqrt (inner A A) + Num.sqrt (inner B B).
Proof.
rewrite -(ler_pexpn2r (isT : (0 < 2)%N)) ?nnegrE ?addr_ge0 ?sqrtr_ge0 // sqr_sqrtr ?inner_ge0 //.
rewrite sqrrD !sqr_sqrtr ?inner_ge0 // innerDl !innerDr [inner B A]innerC -!addrA ler_add2l !addrA ler_add2r.
rewrite -mulr2n ler_muln2r /=.
apply: le_trans (ler_norm _) _; rewrite -sqrtr_sqr -sqrtrM ?inner_ge0 //.
by rewrite ler_wsqrtr // cauchy.
Qed.
Lemma dist_euc_triangle (a b c : ext) : dist_euc a c <= dist_euc a b + dist_euc b c.
Proof.
rewrite /dist_euc !dotE; have -> : a - c = (a - b) + (b - c) by rewrite addrA subrK.
exact: norm_triangle.
Qed.
End base.
