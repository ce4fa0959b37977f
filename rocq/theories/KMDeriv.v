(** The derivatives of the Karcher mean, for any logarithm with two bounds. *)
From mathcomp Require Import all_ssreflect all_algebra.
Require Import Ring Field.
From Verif Require Import MxTac StiefelModel StiefelSpec StiefelProofs StiefelPolar SPDSpec SPDProofs Eckart Decomp
  KMModel KMSpec KMFun KMNorm KMProofs.
Import Order.TTheory GRing.Theory Num.Theory.
Set Implicit Arguments.
Unset Strict Implicit.
Local Open Scope ring_scope.

Section derivatives.
Variable R : rcfType.
Add Field kmd_field : (rcf_field R).
Variable n : nat.
Variables (LN : R -> R) (CHOL : 'M[R]_n -> 'M[R]_n) (EIG : 'M[R]_n -> 'M[R]_n * 'rV[R]_n).
Hypotheses (HC : chol_right CHOL) (HE : eig_right EIG).
Hypothesis square_bound : forall lo a b, 0 < lo -> lo <= a -> lo <= b ->
  `|LN b ^+ 2 / 2%:R - LN a ^+ 2 / 2%:R - LN a / a * (b - a)| <= (1 + `|LN a|) / (lo * lo) * (b - a) ^+ 2.
Hypothesis chord_bound : forall lo a a' b, 0 < lo -> lo <= a -> lo <= a' -> lo <= b ->
  `|LN b - LN a - divided LN a a' * (b - a)| <= (lo * lo)^-1 * (`|b - a| * `|b - a'|).
Implicit Types (x y L D : 'M[R]_n).
Local Notation whit := (whitened CHOL).
Local Notation logm := (log_sym LN EIG).
Local Notation cb := (@congr_by R n).
Local Notation V := (vec_of CHOL EIG).
Local Notation lam := (val_of CHOL EIG).

Lemma nrm_sympart D : nrm (sympart D) <= nrm D.
Proof.
have H2 : (0 : R) < 2%:R by rewrite ltr0n.
rewrite /sympart nrmZ gtr0_norm ?invr_gt0 // mulrC ler_pdivr_mulr //.
by apply: le_trans (nrmD _ _) _; rewrite nrm_tr mulr_natr mulr2n.
Qed.
Lemma sympartB x y : sympart (x - y) = sympart x - sympart y.
Proof. by rewrite /sympart trD trN -scalerBr; congr (_ *: _); rewrite opprD addrACA. Qed.
Lemma inner_sympart (S D : 'M[R]_n) : symmetric S -> inner S (sympart D) = inner S D.
Proof.
move=> HS; rewrite /sympart innerZr innerDr -[inner S D^T]inner_tr trmxK HS -mulr2n.
by rewrite -[inner S D *+ 2]mulr_natl mulrA mulVf ?mul1r ?pnatr_eq0.
Qed.
Lemma sandwich (P A B C Q : 'M[R]_n) : P *m A *m Q - P *m B *m Q - P *m C *m Q = P *m (A - B - C) *m Q.
Proof. by rewrite !mulmxBr !mulmxBl. Qed.
Lemma posdef_near x : posdef x -> exists2 d, 0 < d & forall y, symmetric y -> nrm (y - x) < d -> posdef y.
Proof.
move=> Hx; have [Hs _] := Hx; have He := HE Hs; have Hp := posdef_eig Hx He; have [E HU] := He.
have [lo Hlo Hb] := pos_bound Hp; have H2 : lo / 2%:R + lo / 2%:R = lo by rewrite -mulrDl -mulr2n -mulr_natr mulfK ?pnatr_eq0.
have Hl : 0 < lo / 2%:R by rewrite divr_gt0 ?ltr0n.
exists (lo / 2%:R) => // y Hy Hn; have [Ey HV] := HE Hy.
rewrite Ey -fun_id; apply: eig_posdef => // j.
have B := @near_lo R n (EIG x).1 (EIG y).1 (EIG x).2 (EIG y).2 (lo / 2%:R) HU HV Hl; apply: lt_le_trans (B _ _ j) => //.
  by move=> i; rewrite H2.
by rewrite !fun_id -E -Ey.
Qed.

Section point.
Variables (x L : 'M[R]_n).
Hypotheses (Hx : posdef x) (HL : sample L).
Lemma sp : sympart x = x. Proof. by apply: sympart_same; case: Hx. Qed.
Lemma spp : posdef (sympart x). Proof. by rewrite sp. Qed.
Lemma whitx : whit x L = cb L x.
Proof. by rewrite (whitE HC spp HL) sp. Qed.
Let HU := sample_unit HL.
Lemma unitT : L^T \in unitmx. Proof. by rewrite unitmx_tr HU. Qed.
Lemma inv_whit : invmx (whit x L) *m invmx L = L^T *m invmx x.
Proof.
have HxU := posdef_unit Hx.
have E : whit x L *m (L^T *m invmx x *m L) = 1%:M.
  rewrite whitx /congr_by !mulmxA -[_ *m invmx L^T *m L^T]mulmxA mulVmx ?unitT // mulmx1.
  by rewrite -[_ *m x *m invmx x]mulmxA mulmxV // mulmx1 mulVmx.
have [U _] := mulmx1_unit E.
have -> : invmx (whit x L) = L^T *m invmx x *m L by rewrite -[LHS]mulmx1 -E mulKmx.
by rewrite mulmxK.
Qed.
Definition gterm := invmx L^T *m logm (whit x L) *m L^T *m invmx x.
Definition dpsi (t : R) := LN t / t.
Definition psi (t : R) := LN t ^+ 2 / 2%:R.
Lemma gtermE : gterm = invmx L^T *m fun_mx dpsi (V x L) (lam x L) *m invmx L.
Proof.
rewrite /gterm -[_ *m L^T *m invmx x]mulmxA -inv_whit mulmxA -[_ *m logm _ *m _]mulmxA; congr (_ *m _ *m _).
by rewrite (logE LN HC HE spp HL) (fun_inv HC HE spp HL) fun_mul //; exact: (V_orth HC HE spp HL).
Qed.
Lemma gterm_sym : symmetric gterm.
Proof. by rewrite /symmetric gtermE trmx_mul [(_ *m fun_mx _ _ _)^T]trmx_mul fun_sym !trmx_inv trmxK mulmxA. Qed.
Lemma gterm_inner D : inner gterm D = inner (fun_mx dpsi (V x L) (lam x L)) (cb L D).
Proof. by rewrite gtermE -mulmxA inner_mull inner_mulr !trmx_inv trmxK. Qed.
Definition kap := nrm (invmx L) * nrm (invmx L^T).
Lemma kap_ge0 : 0 <= kap. Proof. by rewrite mulr_ge0 ?nrm_ge0. Qed.
Lemma cb_nrm D : nrm (cb L D) <= kap * nrm D.
Proof.
apply: le_trans (nrmM _ _) _; rewrite /kap mulrAC ler_wpmul2r ?nrm_ge0 //; exact: nrmM.
Qed.
Lemma half_term y : posdef (sympart y) ->
  dot (logm (whit y L)) (logm (whit y L)) / 2%:R = \tr (fun_mx psi (V y L) (lam y L)).
Proof.
move=> Hy; rewrite (sq_term LN HC HE Hy HL) /fun_mx mxtrace_mulC mulmxA (V_orth HC HE Hy HL) mul1mx mxtrace_diag mulr_suml.
by apply: eq_bigr => i _; rewrite mxE.
Qed.
(** What both derivatives use: near x the eigenvalues of the whitened matrices stay away from zero. *)
Lemma local_bound : exists d lo, [/\ 0 < d, 0 < lo, forall i, lo <= lam x L 0 i &
  forall y, posdef (sympart y) -> nrm (y - x) < d -> forall j, lo <= lam y L 0 j].
Proof.
have [lo Hlo Hb] := pos_bound (lam_pos HC HE spp HL).
have H2 : lo / 2%:R + lo / 2%:R = lo by rewrite -mulrDl -mulr2n -mulr_natr mulfK ?pnatr_eq0.
have Hl : 0 < lo / 2%:R by rewrite divr_gt0 ?ltr0n.
have Hk : 0 < kap + 1 by rewrite ltr_spaddr ?ltr01 ?kap_ge0.
exists (lo / 2%:R / (kap + 1)), (lo / 2%:R); split=> //; first by rewrite divr_gt0.
  by move=> i; apply: le_trans (Hb i); rewrite -{2}H2 ler_addl ltW.
move=> y Hy Hn j; apply: (@near_lo R n (V x L) (V y L) (lam x L) (lam y L)) => //.
- exact: (V_orth HC HE spp HL).
- exact: (V_orth HC HE Hy HL).
- by move=> i; rewrite H2.
rewrite -(whit_fun HC HE Hy HL) -(whit_fun HC HE spp HL) whitx (whitE HC Hy HL) -cbB.
apply: le_lt_trans (cb_nrm _) _.
have Hd : nrm (sympart y - x) <= nrm (y - x) by rewrite -{1}sp -sympartB nrm_sympart.
have H3 : (kap + 1) * nrm (y - x) < lo / 2%:R by rewrite mulrC -ltr_pdivl_mulr.
by apply: le_lt_trans H3; apply: ler_pmul; rewrite ?kap_ge0 ?nrm_ge0 // ler_addl ler01.
Qed.
Lemma term_grad : exists d K, [/\ 0 < d, 0 <= K & forall y, posdef (sympart y) -> nrm (y - x) < d ->
  `|dot (logm (whit y L)) (logm (whit y L)) / 2%:R - dot (logm (whit x L)) (logm (whit x L)) / 2%:R - inner gterm (y - x)| <=
  K * nrm (y - x) ^+ 2].
Proof.
have [d [lo [Hd Hlo Ha Hb]]] := local_bound.
pose S := 1 + \sum_i `|LN (lam x L 0 i)|.
have HS : 0 <= S by rewrite addr_ge0 ?ler01 // sumr_ge0 // => i _; exact: normr_ge0.
have Hll : 0 < lo * lo by rewrite mulr_gt0.
pose K := S / (lo * lo); have HK : 0 <= K by rewrite divr_ge0 // ltW.
exists d, (K * kap ^+ 2); split=> //; first by rewrite mulr_ge0 ?sqr_ge0.
move=> y Hy Hn; rewrite (half_term Hy) (half_term spp) -(inner_sympart _ gterm_sym) gterm_inner.
have -> : cb L (sympart (y - x)) = fun_mx id (V y L) (lam y L) - fun_mx id (V x L) (lam x L).
  by rewrite -(whit_fun HC HE Hy HL) -(whit_fun HC HE spp HL) whitx (whitE HC Hy HL) -cbB sympartB sp.
apply: le_trans (_ : K * inner (fun_mx id (V y L) (lam y L) - fun_mx id (V x L) (lam x L))
  (fun_mx id (V y L) (lam y L) - fun_mx id (V x L) (lam x L)) <= _).
  apply: klein => //; [exact: (V_orth HC HE spp HL)|exact: (V_orth HC HE Hy HL)|move=> i j].
  apply: le_trans (square_bound Hlo (Ha i) (Hb y Hy Hn j)) _.
  rewrite ler_wpmul2r ?sqr_ge0 // ler_wpmul2r ?invr_ge0 ?(ltW Hll) // ler_add2l (bigD1 i) //= ler_addl.
  by apply: sumr_ge0 => k _; exact: normr_ge0.
rewrite -nrm_sq -[K * kap ^+ 2 * _]mulrA -exprMn ler_wpmul2l // ler_expn2r // ?nnegrE ?nrm_ge0 ?mulr_ge0 ?kap_ge0 ?nrm_ge0 //.
rewrite -(whit_fun HC HE Hy HL) -(whit_fun HC HE spp HL) whitx (whitE HC Hy HL) -cbB.
apply: le_trans (cb_nrm _) _; rewrite ler_wpmul2l ?kap_ge0 // -{1}sp -sympartB; exact: nrm_sympart.
Qed.
(** The logarithm. *)
Definition pterm y := invmx L^T *m logm (whit y L) *m L^T.
Definition Zx (j k : 'I_n) := divided LN (lam x L 0 j) (lam x L 0 k).
Definition dterm D := invmx L^T *m dk Zx (V x L) (cb L D) *m L^T.
Lemma dtermE D : ehess_term LN CHOL EIG x D L = dterm D.
Proof.
rewrite /ehess_term /dterm /dk /tri_sol /tri_solT (sample_low HL) trmx_mul trmxK trmx_inv mulmxA -/(congr_by L D) /Zx /vec_of /val_of.
case: (EIG _) => U l; rewrite /= !gemm0E !scale1r !mulmxA; congr (_ *m _ *m _ *m _ *m _).
by apply/matrixP => j k; rewrite !mxE mulrC.
Qed.
Lemma term_log : exists d K, [/\ 0 < d, 0 <= K & forall y, posdef y -> nrm (y - x) < d ->
  nrm (pterm y - pterm x - dterm (y - x)) <= K * nrm (y - x) ^+ 2].
Proof.
have [d [lo [Hd Hlo Ha Hb]]] := local_bound.
have Hll : 0 < lo * lo by rewrite mulr_gt0.
pose c := nrm (invmx L^T) * nrm L^T; have Hc : 0 <= c by rewrite mulr_ge0 ?nrm_ge0.
have HK : 0 <= (lo * lo)^-1 by rewrite invr_ge0 ltW.
exists d, (c * ((lo * lo)^-1 * kap ^+ 2)); split=> //; first by apply: mulr_ge0 => //; apply: mulr_ge0 => //; exact: sqr_ge0.
move=> y Hy Hn; have Hys : sympart y = y by apply: sympart_same; case: Hy.
have Hy' : posdef (sympart y) by rewrite Hys.
rewrite /pterm /dterm sandwich (logE LN HC HE Hy' HL) (logE LN HC HE spp HL).
have E : cb L (y - x) = fun_mx id (V y L) (lam y L) - fun_mx id (V x L) (lam x L).
  by rewrite -(whit_fun HC HE Hy' HL) -(whit_fun HC HE spp HL) whitx (whitE HC Hy' HL) -cbB Hys.
apply: le_trans (nrmM _ _) _; rewrite mulrC; apply: le_trans (ler_wpmul2l (nrm_ge0 _) (nrmM _ _)) _.
rewrite mulrCA mulrA -/c -[c * _ * _ in X in _ <= X]mulrA; apply: ler_wpmul2l => //.
apply: le_trans (_ : (lo * lo)^-1 * nrm (cb L (y - x)) ^+ 2 <= _); last first.
  rewrite -mulrA -exprMn ler_wpmul2l // ler_expn2r // ?nnegrE ?nrm_ge0 ?mulr_ge0 ?kap_ge0 ?nrm_ge0 //; exact: cb_nrm.
apply: nrm_le; first by rewrite mulr_ge0 ?sqr_ge0.
rewrite exprMn nrm_sq E; apply: daleckii => //; [exact: (V_orth HC HE spp HL)|exact: (V_orth HC HE Hy' HL)|].
by move=> i k j; apply: chord_bound => //; exact: Hb.
Qed.
Lemma dterm_nrm : exists2 C, 0 <= C & forall D, nrm (dterm D) <= C * nrm D.
Proof.
pose Z : 'M[R]_n := \matrix_(j, k) Zx j k; have HV := V_orth HC HE spp HL.
exists (nrm (invmx L^T) * (nrm Z * kap) * nrm L^T) => [|D]; first by rewrite !mulr_ge0 ?nrm_ge0 ?kap_ge0.
apply: le_trans (nrmM _ _) _; rewrite mulrAC ler_wpmul2r ?nrm_ge0 //.
apply: le_trans (nrmM _ _) _; rewrite -mulrA ler_wpmul2l ?nrm_ge0 // /dk frame_nrm //.
have -> : \matrix_(i, k) (Zx i k * ((V x L)^T *m cb L D *m V x L) i k) =
  \matrix_(i, k) (Z i k * ((V x L)^T *m cb L D *m V x L) i k) by apply/matrixP => i k; rewrite !mxE.
apply: le_trans (nrm_hadamard _ _) _; rewrite -mulrA ler_wpmul2l ?nrm_ge0 //.
by rewrite /nrm inner_frame //; exact: cb_nrm.
Qed.
End point.
End derivatives.
