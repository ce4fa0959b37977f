(** Spectral form of the compact matrix, the small system of the Sherman-Morrison-Woodbury formula, and
    the optimality conditions of the trust-region subproblem. *)
From mathcomp Require Import all_ssreflect all_algebra.
Require Import Ring Field.
From Verif Require Import MxTac StiefelSpec StiefelModel StiefelProofs SPDSpec LSR1SubModel LSR1SubSpec.
Import Order.TTheory GRing.Theory Num.Theory.
Set Implicit Arguments.
Unset Strict Implicit.
Local Open Scope ring_scope.

Section extremes.
Variables (R : rcfType) (I : finType) (F : I -> R) (x0 : R).
Lemma bmax_ge i : F i <= \big[Num.max/x0]_j F j.
Proof.
have : i \in index_enum I by exact: mem_index_enum.
elim: (index_enum I) => // j s IH; rewrite in_cons big_cons le_maxr => /orP[/eqP->|/IH ->]; by rewrite ?lexx ?orbT.
Qed.
Lemma bmax_x0 : x0 <= \big[Num.max/x0]_j F j.
Proof. by elim: (index_enum I) => [|j s IH]; rewrite ?big_nil // big_cons le_maxr IH orbT. Qed.
Lemma bmax_in : \big[Num.max/x0]_j F j = x0 \/ exists i, \big[Num.max/x0]_j F j = F i.
Proof.
apply: (big_ind (fun y => y = x0 \/ exists i, y = F i)); [by left | | by move=> i _; right; exists i].
by move=> x y hx hy; case: (leP x y).
Qed.
Lemma bmin_le i : \big[Num.min/x0]_j F j <= F i.
Proof.
have : i \in index_enum I by exact: mem_index_enum.
elim: (index_enum I) => // j s IH; rewrite in_cons big_cons le_minl => /orP[/eqP->|/IH ->]; by rewrite ?lexx ?orbT.
Qed.
Lemma bmin_in : \big[Num.min/x0]_j F j = x0 \/ exists i, \big[Num.min/x0]_j F j = F i.
Proof.
apply: (big_ind (fun y => y = x0 \/ exists i, y = F i)); [by left | | by move=> i _; right; exists i].
by move=> x y hx hy; case: (leP x y).
Qed.
End extremes.

Section ipr.
Variable R : rcfType.
Lemma iprE m (u v : 'cV[R]_m) : ipr u v = inner u v.
Proof. by rewrite /ipr /inner /mxtrace big_ord1. Qed.
Lemma vdE m (u v : 'cV[R]_m) : vd u v = ipr u v.
Proof. by rewrite /vd /ipr mxE; apply: eq_bigr => i _; rewrite mxE. Qed.
Lemma ipr_sum m (u : 'cV[R]_m) : ipr u u = \sum_i u i 0 ^+ 2.
Proof. by rewrite -vdE /vd; apply: eq_bigr => i _; rewrite expr2. Qed.
Lemma ipr_ge0 m (u : 'cV[R]_m) : 0 <= ipr u u.
Proof. by rewrite ipr_sum sumr_ge0 // => i _; exact: sqr_ge0. Qed.
Lemma ipr_eq0 m (u : 'cV[R]_m) : ipr u u = 0 -> u = 0.
Proof. rewrite iprE; exact: inner_eq0. Qed.
Lemma ipr_gt0 m (u : 'cV[R]_m) : u != 0 -> 0 < ipr u u.
Proof. by move=> u0; rewrite lt_neqAle ipr_ge0 andbT eq_sym; apply/eqP => /ipr_eq0 /eqP; rewrite (negbTE u0). Qed.
End ipr.

Section spectral.
Variables (R : rcfType) (m k : nat) (P : 'M[R]_(m, k)) (d : 'rV[R]_k).
Hypothesis Po : orthonormal P.
Add Field specfield : (rcf_field R).
Implicit Types (v g eta : 'cV[R]_m) (tau : R).

Definition resid v := v - P *m (P^T *m v).
Definition sh tau : 'M[R]_m := tau%:M + P *m diag_mx d *m P^T.

Lemma resid_par v : P^T *m resid v = 0.
Proof. by rewrite /resid mulmxDr mulmxN !mulmxA Po mul1mx subrr. Qed.
Lemma par_split v : v = P *m (P^T *m v) + resid v.
Proof. by rewrite /resid addrC subrK. Qed.
Lemma ipr_par (a b : 'cV[R]_k) v w : P^T *m v = 0 -> P^T *m w = 0 ->
  ipr (P *m a + v) (P *m b + w) = ipr a b + ipr v w.
Proof.
move=> v0 w0; rewrite !iprE innerDl !innerDr !inner_mull w0 inner0r addr0 mulmxA Po mul1mx.
by rewrite (innerC v) inner_mull v0 inner0r add0r.
Qed.
Lemma ipr_split v : ipr v v = ipr (P^T *m v) (P^T *m v) + ipr (resid v) (resid v).
Proof. by rewrite -ipr_par ?resid_par // -par_split. Qed.
Lemma resid_sq v : ipr v v - ipr (P^T *m v) (P^T *m v) = ipr (resid v) (resid v).
Proof. by rewrite ipr_split addrAC subrr add0r. Qed.

Lemma sh_app tau v : sh tau *m v = P *m \col_i ((d 0 i + tau) * (P^T *m v) i 0) + tau *: resid v.
Proof.
have -> : \col_i ((d 0 i + tau) * (P^T *m v) i 0) = diag_mx d *m (P^T *m v) + tau *: (P^T *m v).
  by apply/matrixP => i j; rewrite mul_diag_mx !mxE ord1 mulrDl.
rewrite /sh mulmxDl mul_scalar_mx mulmxDr !mulmxA -scalemxAr -addrA [X in _ = _ + X]addrC.
by rewrite /resid !mulmxA scalerBr subrK addrC.
Qed.
Lemma sh_quad tau v : ipr v (sh tau *m v) =
  \sum_i (d 0 i + tau) * (P^T *m v) i 0 ^+ 2 + tau * ipr (resid v) (resid v).
Proof.
rewrite {1}[v]par_split sh_app ipr_par ?resid_par //; last by rewrite -scalemxAr resid_par scaler0.
congr (_ + _); last by rewrite !iprE innerZr.
by rewrite -vdE /vd; apply: eq_bigr => i _; rewrite [X in _ * X]mxE expr2 mulrCA.
Qed.
Lemma sh_nonneg tau : (forall i, 0 <= d 0 i + tau) -> 0 <= tau -> nonnegative (sh tau).
Proof.
move=> h t v; rewrite sh_quad addr_ge0 //; last by rewrite mulr_ge0 // ipr_ge0.
by rewrite sumr_ge0 // => i _; rewrite mulr_ge0 // sqr_ge0.
Qed.
Lemma sh_pos tau : (forall i, 0 < d 0 i + tau) -> 0 < tau -> positive (sh tau).
Proof.
move=> h t v v0; have : 0 <= ipr v (sh tau *m v) by apply: sh_nonneg; [move=> i; exact: ltW | exact: ltW].
rewrite le_eqVlt => /orP[/eqP E|] //; exfalso; move: E; rewrite sh_quad => /esym /eqP.
have q1 i : 0 <= (d 0 i + tau) * (P^T *m v) i 0 ^+ 2 by rewrite mulr_ge0 ?sqr_ge0 // ltW.
rewrite (paddr_eq0 (sumr_ge0 _ (fun i _ => q1 i))); last by rewrite mulr_ge0 ?ipr_ge0 // ltW.
case/andP; rewrite psumr_eq0 //.
move=> /allP E1; rewrite mulf_eq0 gt_eqF //= => /eqP /ipr_eq0 E2.
have E3 : P^T *m v = 0.
  apply/matrixP => i j; rewrite ord1 [RHS]mxE; move: (E1 i (mem_index_enum i)).
  by rewrite /= mulf_eq0 gt_eqF //= expf_eq0 /= => /eqP.
by move: v0; rewrite [v]par_split E2 E3 mulmx0 addr0 eqxx.
Qed.
Lemma sh_sym tau : symmetric (sh tau).
Proof. by rewrite /symmetric /sh trD tr_scalar_mx !trM trmxK tr_diag_mx !mulmxA. Qed.
(** Conversely, eigenvalues of a nonnegative matrix. *)
Lemma sh_nonneg_inv tau : nonnegative (sh tau) -> forall i, 0 <= d 0 i + tau.
Proof.
move=> h i; have := h (P *m delta_mx i 0); rewrite sh_quad /resid (mulmxA P^T) Po mul1mx.
rewrite subrr (_ : ipr 0 0 = 0); last by rewrite iprE inner0r.
rewrite mulr0 addr0 (bigD1 i) //= big1 ?addr0.
  by rewrite mxE !eqxx expr1n mulr1.
by move=> j ji; rewrite mxE (negbTE ji) /= expr2 mulr0 mulr0.
Qed.

Lemma sh_solve tau g eta : (forall i, d 0 i + tau != 0) -> tau != 0 -> sh tau *m eta = - g ->
  (forall i, (P^T *m eta) i 0 = - ((P^T *m g) i 0 / (d 0 i + tau))) /\ resid eta = - (tau^-1 *: resid g).
Proof.
move=> h t E.
have E1 : \col_i ((d 0 i + tau) * (P^T *m eta) i 0) = - (P^T *m g).
  have := congr1 (mulmx P^T) E; rewrite sh_app mulmxDr mulmxA Po mul1mx -scalemxAr resid_par scaler0 addr0 mulmxN.
  exact.
have E2 i : (P^T *m eta) i 0 = - ((P^T *m g) i 0 / (d 0 i + tau)).
  move/matrixP/(_ i 0): E1; rewrite [LHS]mxE [RHS]mxE => E1.
  by rewrite -mulNr -E1 mulrAC mulfV // mul1r.
split=> //; have : tau *: resid eta = - resid g.
  have := E; rewrite sh_app E1 mulmxN => E3.
  have -> : tau *: resid eta = - g + P *m (P^T *m g) by rewrite -E3 addrAC addNr add0r.
  by rewrite /resid opprB addrC.
by move=> E3; rewrite -[resid eta]scale1r -(mulVf t) -scalerA E3 scalerN.
Qed.
Lemma solve_len tau g eta : (forall i, d 0 i + tau != 0) -> tau != 0 -> sh tau *m eta = - g ->
  ipr eta eta = \sum_i ((P^T *m g) i 0 / (d 0 i + tau)) ^+ 2 + ipr (resid g) (resid g) / tau ^+ 2.
Proof.
move=> h t E; have [E1 E2] := sh_solve h t E; rewrite ipr_split E2 ipr_sum; congr (_ + _).
  by apply: eq_bigr => i _; rewrite E1 sqrrN.
by rewrite !iprE innerNl innerNr opprK innerZl innerZr mulrA -expr2 exprVn mulrC.
Qed.
End spectral.

Section optimal.
Variables (R : rcfType) (m : nat) (B : 'M[R]_m) (g eta : 'cV[R]_m) (sigma : R).
Hypothesis Bs : symmetric B.
Hypothesis E : (B + sigma%:M) *m eta = - g.
Add Field optfield : (rcf_field R).
Lemma model_gap v : quad B g v - quad B g eta =
  (ipr (v - eta) ((B + sigma%:M) *m (v - eta)) + sigma * (ipr eta eta - ipr v v)) / 2%:R.
Proof.
have Eg u : ipr g u = - (ipr eta (B *m u) + sigma * ipr eta u).
  have -> : g = - ((B + sigma%:M) *m eta) by rewrite E opprK.
  rewrite !iprE innerNl mulmxDl mul_scalar_mx innerDl innerZl; congr (- (_ + _)).
  by rewrite inner_mull Bs.
have sy u w : ipr u (B *m w) = ipr w (B *m u) by rewrite !iprE (innerC u) inner_mull Bs.
rewrite /quad !Eg mulmxDl mul_scalar_mx mulmxBr scalerBr !iprE !innerDr !innerDl !innerNr !innerNl !innerZr -!iprE.
rewrite (sy v eta); have -> : ipr v eta = ipr eta v by rewrite !iprE innerC.
move: (ipr eta (B *m v)) (ipr eta (B *m eta)) (ipr v (B *m v)) (ipr eta v) (ipr eta eta) (ipr v v) => a b c e f h.
by toR R; field; exact: two_neq0.
Qed.
Lemma best_here : nonnegative (B + sigma%:M) -> 0 <= sigma -> best_within B g eta (ipr eta eta).
Proof.
move=> nn s0 v vle; rewrite -subr_ge0 model_gap divr_ge0 ?ler0n // addr_ge0 ?nn // mulr_ge0 // subr_ge0.
exact: vle.
Qed.
End optimal.
Lemma best_everywhere (R : rcfType) m (B : 'M[R]_m) g eta : symmetric B -> B *m eta = - g -> nonnegative B ->
  forall v, quad B g eta <= quad B g v.
Proof.
move=> Bs E nn v; rewrite -subr_ge0 (@model_gap _ _ _ _ _ 0) ?raddf0 ?addr0 //.
by rewrite divr_ge0 ?ler0n // mul0r addr0 nn.
Qed.

Section compactform.
Variables (R : rcfType) (k q : nat).
Notation n := (k + q)%N.
Variable QR : 'M[R]_(n, k) -> 'M[R]_(n, k) * 'M[R]_k.
Variable EIG : 'M[R]_k -> 'M[R]_k * 'rV[R]_k.
Variable QRk : 'M[R]_k -> 'M[R]_k * 'M[R]_k.
Variables (Psi : 'M[R]_(n, k)) (M : 'M[R]_k) (g : 'cV[R]_n).
Hypothesis qr : qr_at QR Psi.
Hypothesis eig : eig_at EIG (Wm QR Psi M).
Notation P := (Par QR EIG Psi M).
Notation d := (EIG (Wm QR Psi M)).2.

Lemma Par_ortho : orthonormal P.
Proof.
case: qr => _ qo _; case: eig => _ eo.
by rewrite /orthonormal /Par trM mulmxA -(mulmxA _ _ (Qf QR Psi)) qo mulmx1 eo.
Qed.
Lemma compactE gamma : compact gamma Psi M = sh P d gamma.
Proof.
case: qr => qp _ _; case: eig => ep _; rewrite /compact /sh; congr (_ + _).
have qp' : Psi = Qf QR Psi *m Rf QR Psi by exact: qp.
have -> : Psi *m invmx M *m Psi^T = Qf QR Psi *m Wm QR Psi M *m (Qf QR Psi)^T.
  by rewrite /Wm !mulmxA -qp' -!mulmxA -trM -qp'.
by rewrite {1}ep /Par trM !mulmxA.
Qed.
Lemma compact_shift gamma sigma : compact gamma Psi M + sigma%:M = sh P d (gamma + sigma).
Proof. by rewrite compactE /sh addrAC -raddfD. Qed.
Lemma compact_sym gamma : symmetric (compact gamma Psi M).
Proof. rewrite compactE; exact: sh_sym. Qed.

Variable meps : R.
Add Field cffield : (rcf_field R).
Lemma upper_unit (r : 'M[R]_k) : upper r -> (forall i, r i i != 0) -> r \in unitmx.
Proof.
move=> up nz; rewrite -unitmx_tr unitmxE det_trig; last first.
  by apply/is_trig_mxP => i j ij; rewrite mxE up.
by rewrite unitfE; apply/prodf_neq0 => i _; rewrite mxE nz.
Qed.
Lemma qr_unit (A : 'M[R]_k) : qr_at QRk A -> (forall i, (QRk A).2 i i != 0) -> A \in unitmx.
Proof.
case=> E qo up nz; have [_ uq] := mulmx1_unit qo.
by have : (QRk A).1 *m (QRk A).2 \in unitmx; [rewrite unitmx_mul uq (upper_unit up nz) | rewrite -E].
Qed.
Lemma accepted_full tau : accepted (100%:R * meps) (QRk (vw QR Psi M tau)).2 ->
  ((k == 0)%N || deficient QR QRk meps Psi M tau) = (k == 0)%N.
Proof.
case=> nz le; case kz: (k == 0)%N => //=; have k0 : (0 < k)%N by rewrite lt0n kz.
pose i0 : 'I_k := Ordinal k0.
rewrite /deficient; set mx := maxv _ _ _ _ _; set mn := minv _ _ _ _ _.
have in_mx i : dg QR QRk Psi M tau i <= mx by rewrite /mx /maxv; apply: bmax_ge.
have mx0 : 0 < mx by apply: lt_le_trans (in_mx i0); rewrite normr_gt0.
have mxle x : 0 <= x -> (forall j, dg QR QRk Psi M tau j <= x) -> mx <= x.
  by move=> x0 h; rewrite /mx /maxv; case: (bmax_in (dg QR QRk Psi M tau) 0) => [->|[j ->]].
have mxat : forall y, (forall j, 100%:R * meps * dg QR QRk Psi M tau j <= y) -> 0 <= y -> 100%:R * meps * mx <= y.
  move=> y h y0; case: (lerP 0 (100%:R * meps)) => e0; last first.
    by apply: le_trans y0; rewrite pmulr_lle0 // ltW.
  case: (eqVneq (100%:R * meps) 0) => [->|e1]; first by rewrite mul0r.
  have e2 : 0 < 100%:R * meps by rewrite lt_neqAle eq_sym e1.
  by rewrite mulrC -ler_pdivl_mulr //; apply: mxle; [rewrite divr_ge0 // ltW | move=> j; rewrite ler_pdivl_mulr // mulrC].
have mn_ge : 100%:R * meps * mx <= mn.
  rewrite /mn /minv; case: (bmin_in (dg QR QRk Psi M tau) (maxv QR QRk Psi M tau)) => [->|[i ->]]; last first.
    by apply: mxat; [move=> j; exact: le | exact: normr_ge0].
  apply: mxat; last exact: ltW.
  by move=> j; apply: le_trans (in_mx i0); exact: le.
by rewrite (gt_eqF mx0) orbF; apply/negbTE; rewrite -leNgt ler_pdivl_mulr.
Qed.

Lemma smw_eq gamma sigma eta st : M \in unitmx -> qr_at QRk (vw QR Psi M (gamma + sigma)) ->
  accepted (100%:R * meps) (QRk (vw QR Psi M (gamma + sigma))).2 ->
  smw QR QRk meps Psi M g st (gamma + sigma) = Step eta st ->
  gamma + sigma != 0 /\ (compact gamma Psi M + sigma%:M) *m eta = - g.
Proof.
move=> Mu qk ac; rewrite /smw; set tau := gamma + sigma.
have -> : compact gamma Psi M + sigma%:M = tau%:M + Psi *m invmx M *m Psi^T by rewrite /compact addrAC -raddfD.
case: eqP => // /eqP t0; rewrite (accepted_full ac); case kz: (k == 0)%N => E; split=> //.
  have k0 := eqP kz; move: E => -[<-]; rewrite mulmxDl mul_scalar_mx scalerA mulN1r mulrN mulfV // scaleN1r.
  have -> : Psi *m invmx M *m Psi^T = 0 by rewrite -mulmxA; apply/matrixP => i j; rewrite [LHS]mxE big1 ?mxE // => l _; exfalso; move: (ltn_ord l); rewrite {2}k0.
  by rewrite mul0mx addr0.
move: E => -[<-].
have vu := qr_unit qk (proj1 ac); set X := invmx _ *m _.
have EX : vw QR Psi M tau *m X = Psi^T *m g by rewrite /X mulmxA mulmxV // mul1mx.
have RR : (Rf QR Psi)^T *m Rf QR Psi = Psi^T *m Psi.
  case: qr => qp qo _; have qp' : Psi = Qf QR Psi *m Rf QR Psi by exact: qp.
  have -> : Psi^T *m Psi = (Qf QR Psi *m Rf QR Psi)^T *m (Qf QR Psi *m Rf QR Psi) by rewrite -qp'.
  by rewrite trM !mulmxA -(mulmxA _ _ (Qf QR Psi)) qo mulmx1.
have E2 : Psi^T *m Psi *m X = tau^-1 *: (Psi^T *m g) - tau *: (M *m X).
  rewrite -EX /vw RR mulmxDl -!scalemxAl scalerDr !scalerA mulVf // scale1r mulrA mulVf // mul1r addrK //.
set C := Psi *m invmx M *m Psi^T.
have E3 : C *m (Psi *m X) = tau^-1 *: (C *m g) - tau *: (Psi *m X).
  rewrite /C -(mulmxA _ Psi^T) (mulmxA Psi^T) E2 mulmxBr -!scalemxAr !mulmxA; congr (_ - _ *: _).
  by rewrite -(mulmxA Psi _ M) mulVmx // mulmx1.
rewrite mulmxDl mul_scalar_mx mulmxDr scalerDr scalerA E3 -scalemxAr mulN1r mulrN mulfV // scaleN1r scaleNr.
by move: (tau *: _) (tau^-1 *: _) => a b; rewrite (addrAC b) subrr add0r addrAC subrr add0r.
Qed.
End compactform.
