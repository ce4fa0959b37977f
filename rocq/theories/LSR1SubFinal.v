(** The subproblem solver of LRTRSR1: results under the conditions of LSR1SubCond.v. *)
From mathcomp Require Import all_ssreflect all_algebra.
Require Import Ring Field.
From Verif Require Import MxTac StiefelSpec StiefelModel StiefelProofs SPDSpec LSR1SubModel LSR1SubSpec LSR1SubCond LSR1SubLin LSR1Secular LSR1SubProofs LSR1SubHard.
Import Order.TTheory GRing.Theory Num.Theory.
Set Implicit Arguments.
Unset Strict Implicit.
Local Open Scope ring_scope.

Section final.
Variables (R : rcfType) (k q : nat).
Notation n := (k + q)%N.
Variable QR : 'M[R]_(n, k) -> 'M[R]_(n, k) * 'M[R]_k.
Variable EIG : 'M[R]_k -> 'M[R]_k * 'rV[R]_k.
Variable QRk : 'M[R]_k -> 'M[R]_k * 'M[R]_k.
Variables (tolN tolE meps : R) (late : bool).
Variables (Psi : 'M[R]_(n, k)) (M : 'M[R]_k) (g : 'cV[R]_n) (gamma Delta : R).
Hypothesis qr : qr_at QR Psi.
Hypothesis eig : eig_at EIG (Wm QR Psi M).
Hypothesis tol : tolerances tolN tolE meps.
Hypothesis D0 : 0 < Delta.
Notation P := (Par QR EIG Psi M).
Notation d := (EIG (Wm QR Psi M)).2.
Notation a := (aj QR EIG tolN Psi M g).
Notation Lam := (Lambda QR EIG tolN Psi M gamma).
Notation lmin := (lambda_min QR EIG tolN Psi M gamma).
Notation B := (compact gamma Psi M).
Notation e := (curvature QR EIG Psi M gamma).
Notation c := (component QR EIG Psi M g).
Notation sub := (subproblem QR EIG QRk tolN tolE meps late Psi M g gamma Delta).
Let tE : 0 < tolE. Proof. by case: tol. Qed.
Let tEN : tolE <= tolN. Proof. by case: tol. Qed.
Let tN : 0 < tolN. Proof. exact: lt_le_trans tEN. Qed.

Lemma gl_comp : rest_legible QR EIG tolN Psi M g -> forall i, a i = c i.
Proof.
move=> rl i; case: (unliftP ord_max i) => [j ->|->]; first by rewrite a_lift /component arr_lift.
rewrite a_max /component arr_max /akp2 !vdE /gpar (resid_sq (Par_ortho qr eig)) -expr2 sqr_sqrtr ?ipr_ge0 //.
case: ltP => // h; case: rl => [-> //|]; first by rewrite sqrtr0.
by rewrite leNgt h.
Qed.
Lemma gl_resolved : gradient_legible QR EIG tolN tolE Psi M g -> forall i, a i = 0 \/ tolE < `|a i|.
Proof.
case=> al rl i; case: (unliftP ord_max i) => [j ->|->]; first by rewrite a_lift; exact: al.
rewrite gl_comp // /component arr_max; case: rl => [->|h]; first by left; rewrite sqrtr0.
right; rewrite ger0_norm ?sqrtr_ge0 //; have tE1 : tolE < 1.
  apply: le_lt_trans tEN _; case: tol => _ _ h1 _ _; apply: lt_trans h1 _.
  by rewrite invf_lt1 ?ltr1n ?ltr0n.
have r0 : 0 <= tolE by exact: ltW.
rewrite -(ger0_norm r0) -sqrtr_sqr; apply: lt_le_trans (ler_wsqrtr h).
rewrite ltr_sqrt //; apply: lt_le_trans tEN; by rewrite expr2 gtr_pmulr.
Qed.
Lemma sl_exact : spectrum_legible QR EIG tolN Psi M gamma -> forall i, Lam i = e i.
Proof.
move=> sl i; rewrite LamE -/(e i); case: (sl i) => [->|h]; first by rewrite if_same.
by case: leP => //; rewrite leNgt h.
Qed.

(** ** Inside *)
Theorem interior_final eta : M \in unitmx -> solvable QR Psi M QRk meps gamma -> sub = Step eta Minimum ->
  [/\ B *m eta = - g, positive B, (forall v, quad B g eta <= quad B g v),
      ipr eta eta <= Delta ^+ 2 + tolN / gamma ^+ 2 &
      rest_legible QR EIG tolN Psi M g -> ipr eta eta <= Delta ^+ 2].
Proof. by move=> Mu [qk ac]; exact: (interior qr eig Mu (ltW tN) D0 qk ac). Qed.

Lemma pos_inj m (C : 'M[R]_m) (u v : 'cV[R]_m) : positive C -> C *m u = C *m v -> u = v.
Proof.
move=> pc E; apply/eqP; rewrite -subr_eq0; apply/negP => /negP h.
by have := pc _ h; rewrite mulmxBr E subrr /ipr mulmx0 mxE ltxx.
Qed.
Theorem interior_found v : M \in unitmx -> solvable QR Psi M QRk meps gamma -> spectrum_legible QR EIG tolN Psi M gamma ->
  0 < gamma -> positive B -> B *m v = - g -> ipr v v <= Delta ^+ 2 -> sub = Step v Minimum.
Proof.
move=> Mu [qk ac] sl g0 pB Ev le; have Po := Par_ortho qr eig; have B0 : B + 0%:M = B by rewrite raddf0 addr0.
have ep i : 0 < e i.
  case: (unliftP ord_max i) => [j ->|->]; last by rewrite /curvature arr_max.
  have nn : 0 <= d 0 j + gamma.
    by apply: (sh_nonneg_inv Po); rewrite -(compactE qr eig); exact: pos_nonneg.
  rewrite /curvature arr_lift lt_neqAle nn andbT eq_sym; apply/eqP => z.
  have u0 : P *m (delta_mx j 0 : 'cV[R]_k) != 0.
    apply/eqP => /(congr1 (mulmx P^T)); rewrite mulmxA Po mul1mx mulmx0 => /matrixP /(_ j 0).
    by rewrite !mxE !eqxx => /eqP; rewrite oner_eq0.
  have := pB _ u0; rewrite (compactE qr eig) sh_quad // /resid (mulmxA P^T) Po mul1mx subrr.
  rewrite (_ : ipr 0 0 = 0); last by rewrite iprE inner0r.
  rewrite mulr0 addr0 big1 ?ltxx // => i' _; case: (eqVneq i' j) => [->|ne]; first by rewrite z mul0r.
  by rewrite !mxE (negbTE ne) /= expr2 !mulr0.
have LE := sl_exact sl; have Lp i : 0 < Lam i by rewrite LE.
have lp : 0 < lmin by have [i ->] := lmin_in QR EIG tolN Psi M gamma.
have nz i : e i + 0 != 0 by rewrite addr0 gt_eqF.
have Ev0 : (B + 0%:M) *m v = - g by rewrite B0.
have [/andP[lo _] _] := len_bounds qr eig (ltW tN) nz Ev0.
have pl : plen Lam a 0 = plen e a 0 by rewrite /plen; congr Num.sqrt; apply: eq_bigr => i _; rewrite LE.
have le2 : plen Lam a 0 <= Delta.
  by rewrite -ler_sqr ?nnegrE ?plen_ge0 ?(ltW D0) // pl; exact: le_trans lo le.
rewrite /subproblem tmpvE lp le2 /=.
have ga : gamma = gamma + 0 by rewrite addr0.
case Es: (smw QR QRk meps Psi M g Minimum gamma) => [eta st||||].
- have st' := smw_st Es; rewrite -st' in Es *; congr (Step _ _); rewrite ga in qk ac Es.
  have [_ E1] := smw_eq qr Mu qk ac Es; rewrite B0 in E1; apply: pos_inj pB _; by rewrite E1 Ev.
all: by move: Es; rewrite /smw gt_eqF //; case: ifP.
Qed.

(** ** The secular equation *)
Lemma plen_ext x (l1 l2 a1 a2 : 'I_k.+1 -> R) : l1 =1 l2 -> a1 =1 a2 -> plen l1 a1 x = plen l2 a2 x.
Proof. by move=> hl ha; rewrite /plen; congr Num.sqrt; apply: eq_bigr => i _; rewrite hl ha. Qed.
Lemma slope_ext x (l1 l2 a1 a2 : 'I_k.+1 -> R) : l1 =1 l2 -> a1 =1 a2 -> slope l1 a1 x = slope l2 a2 x.
Proof. by move=> hl ha; rewrite /slope (plen_ext x hl ha); congr (_ / _); apply: eq_bigr => i _; rewrite hl ha. Qed.
Lemma secular_ext x (l1 l2 a1 a2 : 'I_k.+1 -> R) : l1 =1 l2 -> a1 =1 a2 -> secular l1 a1 Delta x = secular l2 a2 Delta x.
Proof. by move=> hl ha; rewrite /secular (plen_ext x hl ha). Qed.
Lemma plen_mono (l0 a0 : 'I_k.+1 -> R) x y : (forall i, 0 < l0 i + x) -> x <= y -> plen l0 a0 y <= plen l0 a0 x.
Proof.
move=> h xy; apply: ler_wsqrtr; apply: ler_sum => i _; have hy : l0 i + x <= l0 i + y by rewrite ler_add2l.
have py : 0 < l0 i + y by exact: lt_le_trans hy.
rewrite !exprMn !exprVn ler_wpmul2l ?sqr_ge0 // lef_pinv ?posrE ?exprn_gt0 //.
by rewrite ler_sqr // nnegrE ltW // h.
Qed.
Section newton.
Hypothesis sl : spectrum_legible QR EIG tolN Psi M gamma.
Hypothesis gl : gradient_legible QR EIG tolN tolE Psi M g.
Let LE := sl_exact sl.
Let AC := gl_comp (proj2 gl).
Let res := gl_resolved gl.
Theorem phi_final x : (forall i, tolE < e i + x) ->
  phi QR EIG tolN tolE Psi M g gamma Delta x = (if plen e c x == 0 then None else Some (secular e c Delta x, slope e c x)) /\
  forall y, (forall i, 0 < e i + y) -> plen e c x != 0 -> secular e c Delta y <= secular e c Delta x + (y - x) * slope e c x.
Proof.
move=> tx; have tx' i : tolE < Lam i + x by rewrite LE.
split; first by rewrite (phiE Delta tE res tx') (plen_ext x LE AC) (slope_ext x LE AC) (secular_ext x LE AC).
move=> y ty px; have px0 : 0 < plen e c x by rewrite lt_neqAle eq_sym px plen_ge0.
have [s cs0] : exists s, c s != 0.
  case: (pickP (fun i => c i != 0)) => [s h|h]; first by exists s.
  move: px0; rewrite /plen big1 ?sqrtr0 ?ltxx // => i _.
  by have /negbFE/eqP -> := h i; rewrite mul0r expr2 mul0r.
have t0 i : 0 < e i + x by exact: lt_trans (tx i).
have [h _] := tangent_above cs0 t0 ty; rewrite /secular.
by rewrite addrAC ler_add2r.
Qed.
Theorem newton_final j x : (forall i, tolE < e i + x) -> Delta <= plen e c x ->
  exists s, [/\ newton QR EIG tolN tolE meps Psi M g gamma Delta j x = Some s, x <= s, Delta <= plen e c s,
    `|secular e c Delta s| <= meps \/ s = iter j (nstep e c Delta) x &
    forall y, (forall i, 0 < e i + y) -> plen e c y < Delta -> s < y].
Proof.
move=> tx le; have tx' i : tolE < Lam i + x by rewrite LE.
have le' : Delta <= plen Lam a x by rewrite (plen_ext x LE AC).
have [s E] := newton_some meps tE D0 res j tx' le'; exists s.
have [h1 h2 h3 _] := newton_left tE D0 res tx' le' E.
rewrite (plen_ext s LE AC) in h2; rewrite (secular_ext s LE AC) in h3.
split; [exact: E | exact: h1 | exact: h2 | | ].
  case: h3 => [h|->]; [by left | right; apply: eq_iter => z].
  by rewrite /nstep (secular_ext z LE AC) (slope_ext z LE AC).
move=> y ty lt; rewrite ltNge; apply/negP => ys.
by have := lt_le_trans lt h2; rewrite ltNge (plen_mono _ ty ys).
Qed.
End newton.

(** ** On the boundary *)
Theorem boundary_final eta : M \in unitmx -> (forall s, (forall i, 0 < e i + s) -> solvable QR Psi M QRk meps (gamma + s)) ->
  spectrum_legible QR EIG tolN Psi M gamma -> gradient_legible QR EIG tolN tolE Psi M g ->
  starts_clear QR EIG tolN tolE Psi M g gamma Delta -> sub = Step eta Exceeded ->
  exists s, [/\ 0 <= s, (B + s%:M) *m eta = - g, positive (B + s%:M), best_within B g eta (ipr eta eta) &
    [/\ Delta ^+ 2 <= ipr eta eta,
        `|secular e c Delta s| <= meps \/ s = iter 10 (nstep e c Delta) (start QR EIG tolN Psi M g gamma Delta) &
        (forall i, 0 < e i) -> (exists i j, [/\ c i != 0, c j != 0 & e i != e j]) -> Delta ^+ 2 < ipr eta eta]].
Proof.
move=> Mu sv sl gl sc; have ac := gl_comp (proj2 gl); have LE := sl_exact sl.
have sep : tolE < lmin + start QR EIG tolN Psi M g gamma Delta.
  by have [i ->] := lmin_in QR EIG tolN Psi M gamma; rewrite LE; exact: sc.
move=> E; have res := gl_resolved gl.
have [s0 [En [_ hp]]] := boundary_run E; have [tx [_ [le _]]] := start_ok tE D0 sep hp.
have [x1 _ _ _] := newton_left tE D0 res tx le En.
have sv' s : newton QR EIG tolN tolE meps Psi M g gamma Delta 10 (start QR EIG tolN Psi M g gamma Delta) = Some s ->
    solvable QR Psi M QRk meps (gamma + s).
  rewrite En => -[<-]; apply: sv => i; apply: lt_trans tE _; apply: lt_le_trans (sc i) _; by rewrite ler_add2l.
have [s [h1 h2 h3 h4 [h5 h6 h7]]] := boundary qr eig Mu (ltW tN) tE D0 (gl_resolved gl) LE sep sv' E.
have pl x : plen e a x = plen e c x by rewrite /plen; congr Num.sqrt; apply: eq_bigr => i _; rewrite ac.
exists s; split; [exact: h1 | exact: h2 | exact: h3 | exact: h4 | split; first exact: h5].
- have ns x : nstep e a Delta x = nstep e c Delta x.
    rewrite /nstep /secular /slope pl; congr (_ - _ / (_ / _)) => /=.
    by apply: eq_bigr => i _; rewrite ac.
  case: h6 => [h|E6]; [left | right].
    by rewrite /secular -pl; exact: h.
  by rewrite -(eq_iter ns); exact: E6.
- move=> ep [i [j [ci cj ne]]]; apply: h7.
    by have [i' ->] := lmin_in QR EIG tolN Psi M gamma; rewrite LE.
  by exists i, j; rewrite !ac !LE; split.
Qed.

(** ** Hard case *)
Theorem hard_zero_final eta : spectrum_legible QR EIG tolN Psi M gamma -> gradient_legible QR EIG tolN tolE Psi M g ->
  (forall i, 0 <= e i) -> sub = Step eta NegativeCurvature ->
  [/\ B *m eta = - g, nonnegative B, (forall v, quad B g eta <= quad B g v) & ipr eta eta <= Delta ^+ 2].
Proof.
move=> sl gl nn E; have LE := sl_exact sl.
have l0 : lmin = 0.
  apply/eqP; rewrite eq_le; have [-> _ _] := hard_run E.
  by have [i ->] := lmin_in QR EIG tolN Psi M gamma; rewrite LE nn.
exact: (hard_zero qr eig tE tEN D0 (gl_resolved gl) LE (proj2 gl) l0 E).
Qed.
End final.

Section one.
Variables (R : rcfType) (q : nat).
Notation n := (1 + q)%N.
Variable QR : 'M[R]_(n, 1) -> 'M[R]_(n, 1) * 'M[R]_1.
Variable EIG : 'M[R]_1 -> 'M[R]_1 * 'rV[R]_1.
Variable QRk : 'M[R]_1 -> 'M[R]_1 * 'M[R]_1.
Variables (tolN tolE meps : R) (late : bool).
Variables (Psi : 'M[R]_(n, 1)) (M : 'M[R]_1) (g : 'cV[R]_n) (gamma Delta : R).
Notation sub := (subproblem QR EIG QRk tolN tolE meps late Psi M g gamma Delta).
Notation B := (compact gamma Psi M).
Notation e := (curvature QR EIG Psi M gamma).
Theorem hard_one_final eta : qr_at QR Psi -> eig_at EIG (Wm QR Psi M) -> tolerances tolN tolE meps -> 0 < Delta ->
  spectrum_legible QR EIG tolN Psi M gamma -> gradient_legible QR EIG tolN tolE Psi M g ->
  e ord0 < 0 -> e ord0 = gamma \/ e ord0 + tolN < gamma -> sub = Step eta NegativeCurvature ->
  [/\ (B - (e ord0)%:M) *m eta = - g, nonnegative (B - (e ord0)%:M), ipr eta eta = Delta ^+ 2 & best_within B g eta (Delta ^+ 2)].
Proof.
move=> qr eig tol D0 sl gl neg le E; have LE := sl_exact (tolN := tolN) sl.
have [tE tEN] : 0 < tolE /\ tolE <= tolN by case: tol.
have tN : 0 < tolN by exact: lt_le_trans tEN.
have em : e ord_max = gamma by rewrite /curvature arr_max.
have two (i : 'I_2) : i = ord0 \/ i = ord_max by case: i => [[|[|//]] h]; [left | right]; apply: val_inj.
have le' i : e ord0 <= e i.
  case: (two i) => -> //; rewrite em; case: le => [->//|h]; apply: ltW; apply: lt_trans h; by rewrite ltr_addl.
have lm : lambda_min QR EIG tolN Psi M gamma = e ord0.
  apply/eqP; rewrite eq_le -{1}LE lmin_le /=.
  by have [i ->] := lmin_in QR EIG tolN Psi M gamma; rewrite LE le'.
have ap i : `|Lambda QR EIG tolN Psi M gamma i - lambda_min QR EIG tolN Psi M gamma| <= tolN ->
    Lambda QR EIG tolN Psi M gamma i = lambda_min QR EIG tolN Psi M gamma.
  rewrite LE lm ger0_norm ?subr_ge0 ?le' // => h; case: (two i) h => -> //; rewrite em; case: le => [E1|h1]; first by move=> _; exact: esym E1.
  by rewrite ler_subl_addl leNgt h1.
have neg' : lambda_min QR EIG tolN Psi M gamma < 0 by rewrite lm.
have L0 : Lambda QR EIG tolN Psi M gamma ord0 = lambda_min QR EIG tolN Psi M gamma by rewrite LE lm.
have := hard_one qr eig tE tEN D0 (gl_resolved qr eig tol gl) LE (proj2 gl) ap neg' L0 E.
by rewrite lm.
Qed.
End one.
