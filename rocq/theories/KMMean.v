(** The derivatives of the mean over all samples. *)
From mathcomp Require Import all_ssreflect all_algebra.
Require Import Ring Field.
From Verif Require Import MxTac StiefelModel StiefelSpec StiefelProofs StiefelPolar SPDSpec SPDProofs Eckart Decomp
  KMModel KMSpec KMFun KMNorm KMProofs KMDeriv.
Import Order.TTheory GRing.Theory Num.Theory.
Set Implicit Arguments.
Unset Strict Implicit.
Local Open Scope ring_scope.

Section derivatives.
Variable R : rcfType.
Add Field kmm_field : (rcf_field R).
Variable n : nat.
Variables (LN : R -> R) (CHOL : 'M[R]_n -> 'M[R]_n) (EIG : 'M[R]_n -> 'M[R]_n * 'rV[R]_n).
Hypotheses (HC : chol_right CHOL) (HE : eig_right EIG).
Hypothesis square_bound : forall lo a b, 0 < lo -> lo <= a -> lo <= b ->
  `|LN b ^+ 2 / 2%:R - LN a ^+ 2 / 2%:R - LN a / a * (b - a)| <= (1 + `|LN a|) / (lo * lo) * (b - a) ^+ 2.
Hypothesis chord_bound : forall lo a a' b, 0 < lo -> lo <= a -> lo <= a' -> lo <= b ->
  `|LN b - LN a - divided LN a a' * (b - a)| <= (lo * lo)^-1 * (`|b - a| * `|b - a'|).
Implicit Types (x y L D : 'M[R]_n).
Local Notation whit := (whitened CHOL).
Local Notation logm := (log_sym LN EIG).
Local Notation cb := (@congr_by R n).
Local Notation V := (vec_of CHOL EIG).
Local Notation lam := (val_of CHOL EIG).
Local Notation gterm := (gterm LN CHOL EIG).
Local Notation pterm := (fun L y => pterm LN CHOL EIG L y).
Local Notation dterm := (dterm LN CHOL EIG).

Lemma shuffle (a b c e h : 'M[R]_n) : a - c = a + b - c - h + (h - e) - (b - e).
Proof. by rewrite addrA subrK opprB addrA subrK addrAC addrK. Qed.
Lemma residual x y (gy g px py h : 'M[R]_n) : gy *m y = py -> g *m x = px ->
  (gy - g) *m x = py - px - h + (h - g *m (y - x)) - (gy - g) *m (y - x).
Proof.
move=> <- <-; set D := y - x; have -> : gy *m y = gy *m x + gy *m D by rewrite -mulmxDr /D addrC subrK.
by rewrite !mulmxBl; exact: shuffle.
Qed.
Lemma list_near x (Q : 'M[R]_n -> Prop) (err : 'M[R]_n -> 'M[R]_n -> R) (Ls : seq 'M[R]_n) :
  (forall L, L \in Ls -> exists d K, [/\ 0 < d, 0 <= K & forall y, Q y -> nrm (y - x) < d -> err L y <= K * nrm (y - x) ^+ 2]) ->
  exists d K, [/\ 0 < d, 0 <= K & forall y, Q y -> nrm (y - x) < d -> \sum_(L <- Ls) err L y <= K * nrm (y - x) ^+ 2].
Proof.
elim: Ls => [_|L Ls IH H].
  by exists 1, 0; split=> // y _ _; rewrite big_nil mul0r.
have [d1 [K1 [H1 H1' H1'']]] := H L (mem_head _ _).
have [d2 [K2 [H2 H2' H2'']]] := IH (fun L' HL' => H L' (mem_behead (s := L :: Ls) HL')).
exists (Num.min d1 d2), (K1 + K2); split=> [||y Hy]; first by rewrite lt_minr H1.
  exact: addr_ge0.
by rewrite lt_minr => /andP[N1 N2]; rewrite big_cons mulrDl ler_add ?H1'' ?H2''.
Qed.

Variables (x : 'M[R]_n) (Ls : seq 'M[R]_n).
Hypotheses (Hx : posdef x) (HLs : forall L, L \in Ls -> sample L) (Hne : Ls != [::]).
Let num : R := (size Ls)%:R.
Lemma num_gt0 : 0 < num.
Proof. by rewrite /num ltr0n; case: (Ls) Hne. Qed.

Lemma egradE y : posdef y ->
  egrad LN CHOL EIG Ls y = (num^-1 *: \sum_(L <- Ls) pterm L y) *m invmx y.
Proof.
move=> Hy; have Hs : sympart y = y by apply: sympart_same; case: Hy.
have Hcs := chol_sample HC Hy; have [HF EF] := Hcs.
rewrite /egrad /factor -/(sympart y) Hs /tri_sol /tri_solT (sample_low HF) !trmx_mul trmxK !trmx_inv !trmxK div1r -/num -scalemxAl.
congr (_ *: _); rewrite -mulmxA.
have HU := sample_unit HF; have HyU := posdef_unit Hy.
have -> : invmx (CHOL y)^T *m invmx (CHOL y) = invmx y.
  have E : y *m (invmx (CHOL y)^T *m invmx (CHOL y)) = 1%:M.
    by rewrite -{1}EF !mulmxA -[_ *m (CHOL y)^T *m _]mulmxA mulmxV ?unitmx_tr // mulmx1 mulmxV.
  by rewrite -[LHS]mulmx1 -[RHS]mulmx1 -{2}E mulKmx // mulmx1.
congr (_ *m _); apply: eq_big_seq => L HL.
by rewrite /pterm (sample_low (HLs HL)) gemm0E scale1r mulmxA.
Qed.
Lemma egrad_sum y : posdef y -> egrad LN CHOL EIG Ls y = num^-1 *: \sum_(L <- Ls) gterm y L.
Proof. by move=> Hy; rewrite egradE // -scalemxAl mulmx_suml. Qed.
Lemma egrad_sym y : posdef y -> symmetric (egrad LN CHOL EIG Ls y).
Proof.
move=> Hy; rewrite /symmetric egrad_sum // linearZ /= linear_sum /=; congr (_ *: _).
by apply: eq_big_seq => L HL; have := gterm_sym LN HC HE Hy (HLs HL); rewrite /symmetric => ->.
Qed.
Lemma inner_suml (F : 'M[R]_n -> 'M[R]_n) D : inner (\sum_(L <- Ls) F L) D = \sum_(L <- Ls) inner (F L) D.
Proof.
elim: (Ls) => [|L s IH]; first by rewrite !big_nil inner0l.
by rewrite !big_cons innerDl IH.
Qed.
Lemma value_grad : exists d K, [/\ 0 < d, 0 <= K & forall y, nrm (y - x) < d -> exists vx vy,
  [/\ f LN CHOL EIG Ls x = Some vx, f LN CHOL EIG Ls y = Some vy &
  `|vy - vx - inner (egrad LN CHOL EIG Ls x) (y - x)| <= K * nrm (y - x) ^+ 2]].
Proof.
have [d0 Hd0 Hp] := posdef_near HE Hx.
pose g y L := dot (logm (whit y L)) (logm (whit y L)).
have [d [K [Hd HK H]]] := @list_near x (fun y => posdef (sympart y))
  (fun L y => `|g y L / 2%:R - g x L / 2%:R - inner (gterm x L) (y - x)|) Ls
  (fun L HL => term_grad HC HE square_bound Hx (HLs HL)).
exists (Num.min d0 d), (num^-1 * K); split=> [||y]; first by rewrite lt_minr Hd0.
  by rewrite mulr_ge0 // invr_ge0 ltW ?num_gt0.
rewrite lt_minr => /andP[N0 N].
have Hs : sympart x = x by apply: sympart_same; case: Hx.
have Hy : posdef (sympart y).
  apply: Hp; first exact: sympart_sym.
  by apply: le_lt_trans N0; rewrite -{1}Hs -sympartB; exact: nrm_sympart.
exists ((\sum_(L <- Ls) g x L) / (2%:R * num)), ((\sum_(L <- Ls) g y L) / (2%:R * num)).
have Hsz : (size Ls == 0%N) = false by case: (Ls) Hne.
split; [by rewrite /f Hsz big_map|by rewrite /f Hsz big_map|].
rewrite egrad_sum // innerZl inner_suml.
have -> : (\sum_(L <- Ls) g y L) / (2%:R * num) - (\sum_(L <- Ls) g x L) / (2%:R * num) -
   num^-1 * (\sum_(L <- Ls) inner (gterm x L) (y - x)) =
   num^-1 * \sum_(L <- Ls) (g y L / 2%:R - g x L / 2%:R - inner (gterm x L) (y - x)).
  rewrite !big_split /= !sumrN -!mulr_suml !mulrBr invfM.
  by congr (_ - _ - _); rewrite [RHS]mulrCA [num^-1 * _]mulrC.
rewrite normrM ger0_norm ?invr_ge0 ?(ltW num_gt0) // -mulrA ler_wpmul2l ?invr_ge0 ?(ltW num_gt0) //.
by apply: le_trans (H y Hy N); exact: ler_norm_sum.
Qed.

(** The Hessian. *)
Definition dsum D := num^-1 *: \sum_(L <- Ls) dterm x L D.
Lemma ehessE G D : ehess LN CHOL EIG Ls x G D = (dsum D - G *m D) *m invmx x.
Proof.
rewrite /ehess /dsum -/num; congr ((_ *: _ - _) *m _); apply: eq_big_seq => L HL; apply: dtermE; exact: HLs.
Qed.
Lemma dsum_nrm : exists2 C, 0 <= C & forall D, nrm (dsum D) <= C * nrm D.
Proof.
have [C HC0 H] : exists2 C, 0 <= C & forall D, \sum_(L <- Ls) nrm (dterm x L D) <= C * nrm D.
  elim: (Ls) HLs => [|L s IH] HL; first by exists 0 => // D; rewrite big_nil mul0r.
  have [C1 HC1 H1] := dterm_nrm LN HC HE Hx (HL _ (mem_head _ _)).
  have [C2 HC2 H2] := IH (fun L' HL' => HL L' (mem_behead (s := L :: s) HL')).
  by exists (C1 + C2) => [|D]; rewrite ?addr_ge0 // big_cons mulrDl ler_add.
exists (num^-1 * C) => [|D]; first by rewrite mulr_ge0 ?invr_ge0 ?(ltW num_gt0).
rewrite nrmZ ger0_norm ?invr_ge0 ?(ltW num_gt0) // -mulrA ler_wpmul2l ?invr_ge0 ?(ltW num_gt0) //.
by apply: le_trans (nrm_sum _ _) (H D).
Qed.
Definition psum y := num^-1 *: \sum_(L <- Ls) pterm L y.
Lemma psum_near : exists d K, [/\ 0 < d, 0 <= K & forall y, posdef y -> nrm (y - x) < d ->
  nrm (psum y - psum x - dsum (y - x)) <= K * nrm (y - x) ^+ 2].
Proof.
have [d [K [Hd HK H]]] := @list_near x (fun y => posdef y)
  (fun L y => nrm (pterm L y - pterm L x - dterm x L (y - x))) Ls
  (fun L HL => term_log HC HE chord_bound Hx (HLs HL)).
exists d, (num^-1 * K); split=> // [|y Hy N]; first by rewrite mulr_ge0 // invr_ge0 ltW ?num_gt0.
rewrite /psum /dsum -!scalerBr -!sumrB nrmZ ger0_norm ?invr_ge0 ?(ltW num_gt0) // -mulrA ler_wpmul2l ?invr_ge0 ?(ltW num_gt0) //.
by apply: le_trans (nrm_sum _ _) (H y Hy N).
Qed.
Lemma grad_hess : exists d K, [/\ 0 < d, 0 <= K & forall y, symmetric y -> nrm (y - x) < d ->
  nrm (egrad LN CHOL EIG Ls y - egrad LN CHOL EIG Ls x - ehess LN CHOL EIG Ls x (egrad LN CHOL EIG Ls x) (y - x)) <=
  K * nrm (y - x) ^+ 2].
Proof.
have [d0 Hd0 Hp] := posdef_near HE Hx.
have [d1 [K [Hd1 HK H]]] := psum_near; have [C HC0 HD] := dsum_nrm.
set G := egrad _ _ _ _ x; pose i := nrm (invmx x); have Hi : 0 <= i := nrm_ge0 _.
pose d2 := 2%:R^-1 / (i + 1); have Hi1 : 0 < i + 1 by rewrite ltr_spaddr ?ltr01.
have Hd2 : 0 < d2 by rewrite divr_gt0 ?invr_gt0 ?ltr0n.
pose B := 2%:R * (i * (K + (C + nrm G))).
have HB : 0 <= B by rewrite !mulr_ge0 ?ler0n // !addr_ge0 ?nrm_ge0.
exists (Num.min (Num.min d0 d1) (Num.min d2 1)), ((K + B) * i); split.
- by rewrite !lt_minr Hd0 Hd1 Hd2 ltr01.
- by rewrite mulr_ge0 // addr_ge0.
move=> y Hys; rewrite !lt_minr => /andP[/andP[N0 N1] /andP[N2 N3]].
have Hy := Hp y Hys N0; have {H} HE' := H y Hy N1; set D := y - x in N0 N1 N2 N3 HE' *.
set E := psum y - psum x - dsum D in HE'; set W := egrad _ _ _ _ y - G.
have HxU := posdef_unit Hx; have HyU := posdef_unit Hy.
have Ex : G *m x = psum x by rewrite /G egradE // mulmxKV.
have Ey : egrad LN CHOL EIG Ls y *m y = psum y by rewrite egradE // mulmxKV.
have EW : W *m x = E + (dsum D - G *m D) - W *m D := residual (dsum D) Ey Ex.
have W1 : W = (E + (dsum D - G *m D) - W *m D) *m invmx x by rewrite -EW mulmxK.
have Wn : nrm W <= B * nrm D.
  have HD0 := nrm_ge0 D; have HW0 := nrm_ge0 W.
  have S1 : nrm W <= (nrm E + (C + nrm G) * nrm D + nrm W * nrm D) * i.
    rewrite {1}W1; apply: le_trans (nrmM _ _) _; rewrite ler_wpmul2r //.
    apply: le_trans (nrmB _ _) _; rewrite ler_add ?nrmM //; apply: le_trans (nrmD _ _) _; rewrite ler_add2l.
    by apply: le_trans (nrmB _ _) _; rewrite mulrDl ler_add ?nrmM.
  have S2 : nrm D * i <= 2%:R^-1.
    have : nrm D * (i + 1) < 2%:R^-1 by rewrite -ltr_pdivl_mulr.
    by move=> H; apply: le_trans (ltW H); rewrite ler_wpmul2l // ler_addl ler01.
  have S3 : nrm E <= K * nrm D.
    apply: le_trans HE' _; rewrite ler_wpmul2l // expr2 -{3}[nrm D]mulr1 ler_wpmul2l //; exact: ltW.
  have S4 : nrm W <= i * (K + (C + nrm G)) * nrm D + nrm W / 2%:R.
    apply: le_trans S1 _; rewrite mulrDl ler_add //.
      by rewrite mulrC -mulrA ler_wpmul2l // [(K + _) * _]mulrDl ler_add2r.
    by rewrite -mulrA ler_wpmul2l.
  have S5 : nrm W / 2%:R <= i * (K + (C + nrm G)) * nrm D.
    rewrite -(ler_add2r (nrm W / 2%:R)); apply: le_trans S4 => //.
    by rewrite -mulrDl -mulr2n -mulr_natr mulfK ?pnatr_eq0.
  by rewrite /B -mulrA -ler_pdivr_mull ?ltr0n // mulrC.
rewrite ehessE -/W -/D.
have -> : W - (dsum D - G *m D) *m invmx x = (E - W *m D) *m invmx x.
  by rewrite {1}W1 -mulmxBl; congr (_ *m _); rewrite addrAC addrK.
apply: le_trans (nrmM _ _) _; rewrite mulrAC ler_wpmul2r // mulrDl.
apply: le_trans (nrmB _ _) _; rewrite ler_add //.
by apply: le_trans (nrmM _ _) _; rewrite expr2 mulrA ler_wpmul2r ?nrm_ge0.
Qed.
End derivatives.
