(** Proofs about blind deconvolution. *)
From mathcomp Require Import all_ssreflect all_algebra.
From mathcomp.real_closed Require Import complex.
Require Import Ring Field.
From Verif Require Import MxTac StiefelModel CStieSpec CStieModel CMx PhaseModel PhaseProofs BlindModel BlindSpec.
Import Order.TTheory GRing.Theory Num.Theory.
Set Implicit Arguments.
Unset Strict Implicit.
Local Open Scope ring_scope.
Local Open Scope complex_scope.

Section fourier.
Variables (R : rcfType) (n1 n2 : nat).
Local Notation C := R[i].
Local Notation L := (n1 * n2)%N.
Variables (w1 w2 : C).
Add Ring bf_ring : (kring R).
Lemma fftE d (v : 'cV[C]_L) : unshape (fft2d w1 w2 d (reshape v)) =
  (match d with FORWARD => dft2 n1 n2 w1 w2 | BACKWARD => adj (dft2 n1 n2 w1 w2) end) *m v.
Proof.
apply/colP => k; rewrite /unshape /fft2d !mxE sum_pixels; apply: eq_bigr => c _; apply: eq_bigr => e _.
rewrite /reshape [(\matrix_(_, _) _) _ _]mxE; case: d => /=.
  by rewrite [dft2 _ _ _ _ _ _]mxE /= idx_row idx_col -mulrA mulrC.
rewrite [adj _ _ _]mxE [dft2 _ _ _ _ _ _]mxE /= idx_row idx_col cjM !rmorphX -mulrA mulrC.
by rewrite [(_ %% n1 * c)%N]mulnC [(_ %/ n1 * e)%N]mulnC.
Qed.
End fourier.

Section blind.
Variables (R : rcfType) (n1 n2 N : nat).
Local Notation C := R[i].
Local Notation re := (@complex.Re R).
Local Notation im := (@complex.Im R).
Local Notation L := (n1 * n2)%N.
Add Field blind_field : (rcf_field R).
Add Ring blind_ring : (kring R).
Implicit Types u v a c r : 'cV[C]_L.
Local Notation times := (@times R n1 n2).
Local Notation had := (@had R n1 n2).
Local Notation cj := (@cj R n1 n2).
Lemma timesE u v : times u v = had u v.
Proof. by apply/colP => i; rewrite !mxE; apply: ceq; rewrite !(reM, imM) /=; rng R. Qed.
Lemma cjE u i : cj u i 0 = conjc (u i 0).
Proof. by rewrite mxE; apply: ceq; rewrite ?reJ ?imJ. Qed.
Lemma hadE u v i : had u v i 0 = u i 0 * v i 0.
Proof. by rewrite mxE. Qed.
Lemma hadDl u v a : had (u + v) a = had u a + had v a.
Proof. by apply/colP => i; rewrite !mxE mulrDl. Qed.
Lemma hadDr u v a : had u (v + a) = had u v + had u a.
Proof. by apply/colP => i; rewrite !mxE mulrDr. Qed.
Lemma hadZl t u v : had (rscale t u) v = rscale t (had u v).
Proof. by apply/colP => i; rewrite !mxE mulrA. Qed.
Lemma hadZr t u v : had u (rscale t v) = rscale t (had u v).
Proof. by apply/colP => i; rewrite !mxE mulrCA. Qed.
Lemma cjD' u v : cj (u + v) = cj u + cj v.
Proof. by apply/colP => i; rewrite cjE !mxE cjD; congr (_ + _); rewrite -cjE mxE. Qed.
Lemma cjZ' t u : cj (rscale t u) = rscale t (cj u).
Proof. by apply/colP => i; rewrite cjE !mxE cjM cjR; congr (_ * _); rewrite -cjE mxE. Qed.
Lemma innerE u v : cinner u v = \sum_i re (conjc (u i 0) * v i 0).
Proof.
rewrite -cdotE; apply: eq_bigr => i _; rewrite big_ord_recl big_ord0 addr0 reM reJ imJ.
by rng R.
Qed.
(** Moving factors across the inner product. *)
Lemma move1 r c a : cinner (had r c) a = cinner r (had a (cj c)).
Proof. by rewrite !innerE; apply: eq_bigr => i _; rewrite !hadE cjE cjM -mulrA [_ * a i 0]mulrC. Qed.
Lemma move2 r c a : cinner (had (cj r) a) c = cinner r (had a (cj c)).
Proof.
rewrite !innerE; apply: eq_bigr => i _; rewrite !hadE !cjE cjM conjcK -[in RHS]reJ !cjM !conjcK.
by rewrite mulrA.
Qed.
Variables (w1 w2 : C) (haar ihaar : 'M[C]_L) (B : 'M[C]_(L, N)) (Cm : 'M[C]_L).
Variables (y : 'cV[C]_L) (rho d mu : R).
Definition P : 'M[C]_(L, N) := dft2 n1 n2 w1 w2 *m B.
Definition S : 'M[C]_L := adj (dft2 n1 n2 w1 w2) *m ihaar *m Cm.
Lemma FBU_E U : FBU_of w1 w2 B U = P *m U.
Proof. by rewrite /FBU_of fftE /P mulmxA. Qed.
Lemma FCV_E V : FCV_of w1 w2 ihaar Cm V = S *m V.
Proof. by rewrite /FCV_of fftE /S !mulmxA. Qed.
Lemma residualE a c : residual y a c = y - had a (cj c).
Proof.
apply/colP => i; rewrite !mxE; move: (y i 0) (a i 0) (c i 0) => y' a' c'.
by apply: ceq; rewrite !(reD, imD, reN, imN, reM, imM) /=; rng R.
Qed.
Lemma to_U_E M : to_U w1 w2 B M = adj P *m M.
Proof. by rewrite /to_U fftE adjM adjK /P adjM mulmxA. Qed.
Hypothesis HW : wavelet haar ihaar.
Lemma ihaarE : ihaar = adj haar.
Proof. by case: HW => H1 H2; rewrite -[LHS]mul1mx -H1 -mulmxA H2 mulmx1. Qed.
Lemma to_V_E M : to_V w1 w2 haar Cm M = adj S *m M.
Proof. by rewrite /to_V fftE adjM adjK /S ihaarE !adjM !adjK !mulmxA. Qed.
Definition res (U : 'cV[C]_N) (V : 'cV[C]_L) : 'cV[C]_L := y - had (P *m U) (cj (S *m V)).
Definition dres (U : 'cV[C]_N) (V : 'cV[C]_L) dU dV : 'cV[C]_L := had (P *m U) (cj (S *m dV)) + had (P *m dU) (cj (S *m V)).
Definition ddres (dU : 'cV[C]_N) (dV : 'cV[C]_L) : 'cV[C]_L := had (P *m dU) (cj (S *m dV)).
Lemma res_line U V dU dV t :
  res (U + rscale t dU) (V + rscale t dV) = res U V - rscale t (dres U V dU dV) - rscale (t ^+ 2) (ddres dU dV).
Proof.
rewrite /res /dres /ddres !mulmxDr !rscale_mulr cjD' cjZ' hadDl !hadDr !hadZl !hadZr.
move: (had _ _) (had (P *m U) (cj (S *m dV))) (had (P *m dU) (cj (S *m V))) (had (P *m dU) _) => a1 a2 a3 a4.
rewrite !rscaleD rscaleA -expr2; apply/matrixP => k j; rewrite !mxE.
by krng R.
Qed.
Definition main (U : 'cV[C]_N) (V : 'cV[C]_L) : R := cinner (res U V) (res U V).
Definition pen (U : 'cV[C]_N) (V : 'cV[C]_L) : R := \sum_i rho * excess d mu (P *m U) V i ^+ 2.
Lemma costE U V : cost w1 w2 ihaar B Cm y rho d mu U V = main U V + pen U V.
Proof.
rewrite /cost FBU_E FCV_E residualE cdotE; congr (_ + _); rewrite /pen.
case: eqP => /= [->|_]; first by rewrite big1 // => i _; rewrite mul0r.
by apply: eq_bigr => i _; rewrite expr2 mulrA.
Qed.
Definition gmain (U : 'cV[C]_N) (V : 'cV[C]_L) : 'cV[C]_N * 'cV[C]_L :=
  (rscale (- 2%:R) (adj P *m had (res U V) (S *m V)), rscale (- 2%:R) (adj S *m had (cj (res U V)) (P *m U))).
Definition coef (U : 'cV[C]_N) (V : 'cV[C]_L) i : R := 2%:R * scale_of n1 n2 d mu * rho * 2%:R * excess d mu (P *m U) V i * norm2V V.
Definition coef2 (U : 'cV[C]_N) (V : 'cV[C]_L) : R :=
  \sum_i 2%:R * scale_of n1 n2 d mu * rho * rownorm2 (P *m U) i * 2%:R * excess d mu (P *m U) V i.
Lemma egradE U V : egrad w1 w2 haar ihaar B Cm y rho d mu U V =
  ((gmain U V).1 + adj P *m (\col_i ((coef U V i)%:C * (P *m U) i 0)), (gmain U V).2 + rscale (coef2 U V) V).
Proof.
rewrite /egrad FBU_E FCV_E residualE !to_U_E !to_V_E !timesE -/(res U V).
case: eqP => /= [E|_]; last by [].
have -> : coef2 U V = 0 by rewrite /coef2 E big1 // => i _; rewrite !(mulr0, mul0r).
have -> : \col_i ((coef U V i)%:C * (P *m U) i 0) = 0.
  by apply/colP => i; rewrite [LHS]mxE [RHS]mxE /coef E !(mulr0, mul0r).
by rewrite mulmx0 /rscale scale0r !addr0.
Qed.
Lemma ehessE U V dU dV : ehess w1 w2 haar ihaar B Cm y U V dU dV =
  (rscale 2%:R (adj P *m had (dres U V dU dV) (S *m V)) + rscale (- 2%:R) (adj P *m had (res U V) (S *m dV)),
   rscale 2%:R (adj S *m had (cj (dres U V dU dV)) (P *m U)) + rscale (- 2%:R) (adj S *m had (cj (res U V)) (P *m dU))).
Proof. by rewrite /ehess !FBU_E !FCV_E residualE !to_U_E !to_V_E !timesE. Qed.
Lemma gmain_inner U V dU dV : inner2 (gmain U V) (dU, dV) = - 2%:R * cinner (res U V) (dres U V dU dV).
Proof.
rewrite /inner2 /=.
have E : dres U V dU dV = had (P *m U) (cj (S *m dV)) + had (P *m dU) (cj (S *m V)) by [].
move: E; move: (res U V) (dres U V dU dV) => r0 p E.
rewrite !cinnerZl !cinner_mull !adjK move2 move1 E cinnerDr.
by rng R.
Qed.
Lemma main_line U V dU dV t : main (U + rscale t dU) (V + rscale t dV) =
  main U V + t * inner2 (gmain U V) (dU, dV)
  + t ^+ 2 * (cinner (dres U V dU dV) (dres U V dU dV) - 2%:R * cinner (res U V) (ddres dU dV))
  + t ^+ 3 * (2%:R * cinner (dres U V dU dV) (ddres dU dV)) + t ^+ 4 * cinner (ddres dU dV) (ddres dU dV).
Proof.
rewrite gmain_inner /main res_line; move: (res U V) (dres U V dU dV) (ddres dU dV) => a b' c.
rewrite !(cinnerBl, cinnerBr) !cinnerZl !cinnerZr (cinnerC b' a) (cinnerC c a) (cinnerC c b') !exprS !expr0.
by rng R.
Qed.
Lemma hess_inner U V dU dV eU eV : inner2 (ehess w1 w2 haar ihaar B Cm y U V dU dV) (eU, eV) =
  2%:R * cinner (dres U V dU dV) (dres U V eU eV)
  - 2%:R * (cinner (res U V) (had (P *m eU) (cj (S *m dV))) + cinner (res U V) (had (P *m dU) (cj (S *m eV)))).
Proof.
rewrite ehessE /inner2 /=.
have E : dres U V eU eV = had (P *m U) (cj (S *m eV)) + had (P *m eU) (cj (S *m V)) by [].
move: E; move: (res U V) (dres U V dU dV) (dres U V eU eV) => r0 p p' E.
rewrite !cinnerDl !cinnerZl !cinner_mull !adjK !move2 !move1 E cinnerDr.
by rng R.
Qed.
Lemma hess_sym U V dU dV eU eV : inner2 (ehess w1 w2 haar ihaar B Cm y U V dU dV) (eU, eV) =
  inner2 (ehess w1 w2 haar ihaar B Cm y U V eU eV) (dU, dV).
Proof.
move: (hess_inner U V); move: (ehess w1 w2 haar ihaar B Cm y U V) => h H; rewrite !H (cinnerC (dres U V eU eV)).
by congr (_ - _ * _); rewrite addrC.
Qed.
Lemma hess_diag U V dU dV : inner2 (ehess w1 w2 haar ihaar B Cm y U V dU dV) (dU, dV) =
  2%:R * (cinner (dres U V dU dV) (dres U V dU dV) - 2%:R * cinner (res U V) (ddres dU dV)).
Proof. by rewrite hess_inner -/(ddres dU dV); rng R. Qed.

(** The penalty. *)
Definition pos (z : R) : R := if z < 0 then 0 else z.
Lemma pos_sq (z e : R) : `|pos (z + e) ^+ 2 - pos z ^+ 2 - 2%:R * pos z * e| <= e ^+ 2.
Proof.
rewrite /pos; case: (ltrP z 0) => Hz; case: (ltrP (z + e) 0) => He.
- by rewrite !expr0n /= !(mulr0, mul0r, subr0) normr0 sqr_ge0.
- rewrite !expr0n /= !(mulr0, mul0r, subr0) ger0_norm ?sqr_ge0 //.
  have H : z + e <= e by rewrite ger_addr ltW.
  by rewrite ler_pexpn2r ?nnegrE //; exact: le_trans He H.
- have E : 0 <= e ^+ 2 + z ^+ 2 + 2%:R * z * e.
    by have := sqr_ge0 (z + e); rewrite sqrrD addrAC [X in X + _]addrC -mulr_natl mulrA.
  have H : z ^+ 2 + 2%:R * z * e <= 0.
    have -> : z ^+ 2 + 2%:R * z * e = z * (z + e + e) by rewrite expr2; rng R.
    rewrite mulr_ge0_le0 //.
    have H1 : e <= 0 by rewrite -(ger_addl z); apply: ltW; apply: lt_le_trans He Hz.
    by rewrite -[0]addr0 ler_add // ltW.
  have -> : 0 ^+ 2 - z ^+ 2 - 2%:R * z * e = - (z ^+ 2 + 2%:R * z * e) by rewrite expr0n /= sub0r opprD.
  by rewrite normrN ler0_norm // -subr_ge0 opprK addrA.
- have -> : (z + e) ^+ 2 - z ^+ 2 - 2%:R * z * e = e ^+ 2 by rewrite !expr2; rng R.
  by rewrite ger0_norm ?sqr_ge0.
Qed.
Lemma slopeE (f g : R -> R) (c : R) : (forall t, f t = g t) -> slope f c -> slope g c.
Proof. by move=> E [K H]; exists K => t Ht; rewrite -!E; exact: H. Qed.
Lemma slopeD (f g : R -> R) (c c' : R) : slope f c -> slope g c' -> slope (fun t => f t + g t) (c + c').
Proof.
move=> [K H] [K' H']; exists (K + K') => t Ht.
have -> : f t + g t - (f 0 + g 0) - t * (c + c') = (f t - f 0 - t * c) + (g t - g 0 - t * c') by rng R.
by rewrite mulrDl; apply: le_trans (ler_norm_add _ _) _; rewrite ler_add ?H ?H'.
Qed.
Lemma slopeZ (f : R -> R) (a c : R) : slope f c -> slope (fun t => a * f t) (a * c).
Proof.
move=> [K H]; exists (`|a| * K) => t Ht.
have -> : a * f t - a * f 0 - t * (a * c) = a * (f t - f 0 - t * c) by rng R.
by rewrite normrM -mulrA ler_wpmul2l ?H.
Qed.
Lemma slope_sum I (s : seq I) (f : I -> R -> R) (c : I -> R) : (forall i, slope (f i) (c i)) ->
  slope (fun t => \sum_(i <- s) f i t) (\sum_(i <- s) c i).
Proof.
move=> H; elim: s => [|i s IH].
  by exists 0 => t _; rewrite !big_nil mulr0 !subr0 normr0 mul0r.
by rewrite big_cons; apply: (slopeE _ (slopeD (H i) IH)) => t; rewrite big_cons.
Qed.
Lemma small_pow t k (c : R) : `|t| <= 1 -> `|t ^+ (2 + k) * c| <= `|c| * t ^+ 2.
Proof.
move=> H; rewrite normrM normrX mulrC exprD -normrX (ger0_norm (sqr_ge0 t)).
by rewrite ler_wpmul2l // -{2}[t ^+ 2]mulr1 ler_wpmul2l ?sqr_ge0 // exprn_ile1.
Qed.
Lemma slope_poly (f : R -> R) (c c2 c3 c4 : R) :
  (forall t, f t = f 0 + t * c + t ^+ 2 * c2 + t ^+ 3 * c3 + t ^+ 4 * c4) -> slope f c.
Proof.
move=> H; exists (`|c2| + `|c3| + `|c4|) => t Ht.
have -> : f t - f 0 - t * c = t ^+ (2 + 0) * c2 + t ^+ (2 + 1) * c3 + t ^+ (2 + 2) * c4.
  rewrite H addn0 !addnS addn0; move: (f 0) (t ^+ 2) (t ^+ 3) (t ^+ 4) => a1 a2 a3 a4; rng R.
rewrite !mulrDl; apply: le_trans (ler_norm_add _ _) _; apply: ler_add; last exact: small_pow.
by apply: le_trans (ler_norm_add _ _) _; apply: ler_add; exact: small_pow.
Qed.
Lemma slope_pos (f : R -> R) (c : R) : slope f c -> slope (fun t => pos (f t) ^+ 2) (2%:R * pos (f 0) * c).
Proof.
move=> [K H]; have K0 : 0 <= K.
  by have := H 1; rewrite normr1 lexx expr1n mulr1 => /(_ isT); apply: le_trans.
have P0 : 0 <= pos (f 0) by rewrite /pos; case: ltrP.
exists ((`|c| + K) ^+ 2 + 2%:R * pos (f 0) * K) => t Ht.
pose e := f t - f 0.
have -> : pos (f t) ^+ 2 - pos (f 0) ^+ 2 - t * (2%:R * pos (f 0) * c) =
  (pos (f 0 + e) ^+ 2 - pos (f 0) ^+ 2 - 2%:R * pos (f 0) * e) + 2%:R * pos (f 0) * (e - t * c).
  by rewrite /e addrCA subrr addr0; move: (pos (f t) ^+ 2) (pos (f 0) ^+ 2) (pos (f 0)) (f t) (f 0) => a1 a2 a3 a4 a5; rng R.
rewrite [X in _ <= X]mulrDl; apply: le_trans (ler_norm_add _ _) _; apply: ler_add.
  apply: le_trans (pos_sq _ _) _; rewrite -exprMn -(real_normK (num_real e)) -[X in _ <= X](real_normK (num_real _)) ler_pexpn2r ?nnegrE //.
  rewrite normrM [`|_ + K|]ger0_norm ?addr_ge0 // mulrDl.
  have -> : e = t * c + (e - t * c) by rewrite addrC subrK.
  apply: le_trans (ler_norm_add _ _) _; apply: ler_add; first by rewrite normrM mulrC.
  apply: le_trans (H t Ht) _; rewrite ler_wpmul2l // -real_normK ?num_real // expr2 -{3}[`|t|]mulr1.
  by rewrite ler_wpmul2l.
have A0 : 0 <= 2%:R * pos (f 0) by rewrite mulr_ge0 ?ler0n.
rewrite normrM (ger0_norm A0) -[X in _ <= X]mulrA; apply: ler_wpmul2l => //; exact: H.
Qed.
Definition lin u v i : R := re (conjc (u i 0) * v i 0).
Lemma rn_line u v t i : rownorm2 (u + rscale t v) i = rownorm2 u i + 2%:R * t * lin u v i + t ^+ 2 * rownorm2 v i.
Proof.
rewrite /rownorm2 /lin !mxE !(reD, imD, reM, imM, reJ, imJ) /= !(mul0r, subr0, addr0).
move: (re (u i 0)) (im (u i 0)) (re (v i 0)) (im (v i 0)) => a1 a2 a3 a4; rewrite expr2; rng R.
Qed.
Lemma nv_line u v t : norm2V (u + rscale t v) = norm2V u + 2%:R * t * cinner u v + t ^+ 2 * norm2V v.
Proof. by rewrite /norm2V !cdotE !(cinnerDl, cinnerDr) !cinnerZl !cinnerZr (cinnerC v u) expr2; rng R. Qed.
Definition zz (a V : 'cV[C]_L) i : R := scale_of n1 n2 d mu * rownorm2 a i * norm2V V - 1.
Lemma zz_slope a a' V dV i : slope (fun t => zz (a + rscale t a') (V + rscale t dV) i)
  (2%:R * scale_of n1 n2 d mu * (lin a a' i * norm2V V + rownorm2 a i * cinner V dV)).
Proof.
have E t : zz (a + rscale t a') (V + rscale t dV) i = zz a V i + t * (2%:R * scale_of n1 n2 d mu * (lin a a' i * norm2V V + rownorm2 a i * cinner V dV))
  + t ^+ 2 * (scale_of n1 n2 d mu * (rownorm2 a' i * norm2V V + rownorm2 a i * norm2V dV + 2%:R * 2%:R * lin a a' i * cinner V dV))
  + t ^+ 3 * (2%:R * scale_of n1 n2 d mu * (lin a a' i * norm2V dV + rownorm2 a' i * cinner V dV))
  + t ^+ 4 * (scale_of n1 n2 d mu * rownorm2 a' i * norm2V dV).
  rewrite /zz rn_line nv_line !exprS !expr0.
  move: (scale_of n1 n2 d mu) (rownorm2 a i) (rownorm2 a' i) (norm2V V) (norm2V dV) (lin a a' i) (cinner V dV) => a1 a2 a3 a4 a5 a6 a7.
  rng R.
apply: slope_poly => t; rewrite E; congr (_ + _ + _ + _ + _).
by rewrite E !exprS !mul0r !addr0.
Qed.
Lemma pen_slope U V dU dV : slope (fun t => pen (U + rscale t dU) (V + rscale t dV))
  (\sum_i coef U V i * lin (P *m U) (P *m dU) i + coef2 U V * cinner V dV).
Proof.
have H i := slopeZ rho (slope_pos (zz_slope (P *m U) (P *m dU) V dV i)).
have := slope_sum (index_enum [finType of 'I_L]) H.
set c := \sum_(i <- _) _; have -> : c = \sum_i coef U V i * lin (P *m U) (P *m dU) i + coef2 U V * cinner V dV.
  rewrite /c /coef2 mulr_suml -big_split; apply: eq_bigr => i _ /=.
  have Z (p : nat) (M : 'M[C]_(L, p)) : rscale 0 M = 0 by rewrite /rscale scale0r.
  rewrite /zz /= !Z !addr0 -/(zz _ _ _).
  have -> : pos (zz (P *m U) V i) = excess d mu (P *m U) V i by [].
  rewrite /coef; move: (excess d mu (P *m U) V i) (lin _ _ _) (rownorm2 _ _) (norm2V V) (cinner V dV) (scale_of n1 n2 d mu) => a1 a2 a3 a4 a5 a6.
  by rng R.
by apply: slopeE => t; apply: eq_bigr => i _; rewrite mulmxDr rscale_mulr.
Qed.
Lemma cost_slope U V dU dV : slope (fun t => cost w1 w2 ihaar B Cm y rho d mu (U + rscale t dU) (V + rscale t dV))
  (inner2 (egrad w1 w2 haar ihaar B Cm y rho d mu U V) (dU, dV)).
Proof.
rewrite egradE.
have -> : inner2 ((gmain U V).1 + adj P *m (\col_i ((coef U V i)%:C * (P *m U) i 0)), (gmain U V).2 + rscale (coef2 U V) V) (dU, dV) =
  inner2 (gmain U V) (dU, dV) + (\sum_i coef U V i * lin (P *m U) (P *m dU) i + coef2 U V * cinner V dV).
  case: (gmain U V) => g1 g2; rewrite /inner2 /= !cinnerDl cinnerZl [X in _ + X + _](_ : _ = \sum_i coef U V i * lin (P *m U) (P *m dU) i); last first.
    rewrite cinner_mull adjK innerE; apply: eq_bigr => i _; rewrite [(\col__ _) i 0]mxE cjM cjR -mulrA reM /= mul0r subr0 //.
  by rewrite addrACA.
have Hm : slope (fun t => main (U + rscale t dU) (V + rscale t dV)) (inner2 (gmain U V) (dU, dV)).
  have E0 : main (U + rscale 0 dU) (V + rscale 0 dV) = main U V by rewrite /rscale !scale0r !addr0.
  have := main_line U V dU dV; move: E0; move: (main U V) (inner2 _ _) main => a b' f E0 E.
  by apply: slope_poly => t; rewrite E0 E.
move: Hm (pen_slope U V dU dV) costE; move: main pen (cost w1 w2 ihaar B Cm y rho d mu) => f g k Hf Hg E.
by apply: (slopeE _ (slopeD Hf Hg)) => t; rewrite E.
Qed.
End blind.
