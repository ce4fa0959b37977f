(** Proofs about the subproblem solver of LRTRSR1. *)
From mathcomp Require Import all_ssreflect all_algebra.
Require Import Ring Field.
From Verif Require Import MxTac StiefelSpec StiefelModel StiefelProofs SPDSpec LSR1SubModel LSR1SubSpec LSR1SubLin LSR1Secular.
Import Order.TTheory GRing.Theory Num.Theory.
Set Implicit Arguments.
Unset Strict Implicit.
Local Open Scope ring_scope.

Section arrays.
Variables (R : rcfType) (k : nat).
Lemma arr_lift (f : 'I_k -> R) z j : arr f z (lift ord_max j) = f j.
Proof. by rewrite /arr liftK. Qed.
Lemma arr_max (f : 'I_k -> R) z : arr f z ord_max = z.
Proof. by rewrite /arr unlift_none. Qed.
Lemma sum_last (G : 'I_k.+1 -> R) : \sum_i G i = \sum_(j < k) G (lift ord_max j) + G ord_max.
Proof.
rewrite big_ord_recr /=; congr (_ + _); apply: eq_bigr => j _; congr G; apply: val_inj => /=.
by rewrite /bump leqNgt ltn_ord.
Qed.
Lemma all_last (Q : 'I_k.+1 -> Prop) : (forall j, Q (lift ord_max j)) -> Q ord_max -> forall i, Q i.
Proof. by move=> h1 h2 i; case: (unliftP ord_max i) => [j ->|->]. Qed.
End arrays.

Section proofs.
Variables (R : rcfType) (k q : nat).
Notation n := (k + q)%N.
Variable QR : 'M[R]_(n, k) -> 'M[R]_(n, k) * 'M[R]_k.
Variable EIG : 'M[R]_k -> 'M[R]_k * 'rV[R]_k.
Variable QRk : 'M[R]_k -> 'M[R]_k * 'M[R]_k.
Variables (tolN tolE meps : R) (late : bool).
Variables (Psi : 'M[R]_(n, k)) (M : 'M[R]_k) (g : 'cV[R]_n) (gamma Delta : R).
Hypothesis qr : qr_at QR Psi.
Hypothesis eig : eig_at EIG (Wm QR Psi M).
Hypothesis Mu : M \in unitmx.
Hypothesis tN : 0 <= tolN.
Hypothesis tE : 0 < tolE.
Hypothesis D0 : 0 < Delta.
Notation P := (Par QR EIG Psi M).
Notation d := (EIG (Wm QR Psi M)).2.
Notation a := (aj QR EIG tolN Psi M g).
Notation Lam := (Lambda QR EIG tolN Psi M gamma).
Notation lmin := (lambda_min QR EIG tolN Psi M gamma).
Notation B := (compact gamma Psi M).
Notation e := (arr (fun j => d 0 j + gamma) gamma).
Notation rho := (ipr (resid P g) (resid P g)).
Notation sub := (subproblem QR EIG QRk tolN tolE meps late Psi M g gamma Delta).
Add Field subfield : (rcf_field R).
Let Po := Par_ortho qr eig.

Lemma lmin_le i : lmin <= Lam i.
Proof. exact: bmin_le. Qed.
Lemma lmin_in : exists i, lmin = Lam i.
Proof. by case: (bmin_in Lam (Lam ord0)) => [E|//]; exists ord0. Qed.
Lemma LamE i : Lam i = if `|e i| <= tolN then 0 else e i.
Proof. by []. Qed.
Lemma Lam_pos i : 0 < Lam i -> Lam i = e i.
Proof. by rewrite LamE; case: ifP => //; rewrite ltxx. Qed.
Lemma a_lift j : a (lift ord_max j) = (P^T *m g) j 0.
Proof. by rewrite /aj arr_lift. Qed.
Lemma a_max : a ord_max = akp2 QR EIG tolN Psi M g.
Proof. by rewrite /aj arr_max. Qed.
Lemma akp2_sq : (a ord_max ^+ 2 = rho /\ (rho = 0 \/ tolN <= rho)) \/ (a ord_max = 0 /\ rho < tolN).
Proof.
rewrite a_max /akp2 !vdE /gpar (resid_sq Po) -expr2 sqr_sqrtr ?ipr_ge0 //.
case: ltP => h; [by right | left; split; [by rewrite sqr_sqrtr ?ipr_ge0 | by right]].
Qed.
Lemma akp2_le : a ord_max ^+ 2 <= rho.
Proof. by case: akp2_sq => -[-> _] //; rewrite expr2 mul0r ipr_ge0. Qed.
Lemma akp2_ge : rho <= a ord_max ^+ 2 + tolN.
Proof. by case: akp2_sq => -[-> h]; [rewrite ler_addl | rewrite expr2 mul0r add0r ltW]. Qed.

Lemma e_lift j : e (lift ord_max j) = d 0 j + gamma.
Proof. by rewrite arr_lift. Qed.
Lemma e_max : e ord_max = gamma.
Proof. by rewrite arr_max. Qed.

(** The length of the solution of the shifted system. *)
Lemma len_bounds sigma eta : (forall i, e i + sigma != 0) -> (B + sigma%:M) *m eta = - g ->
  plen e a sigma ^+ 2 <= ipr eta eta <= plen e a sigma ^+ 2 + tolN / (gamma + sigma) ^+ 2 /\
  (a ord_max ^+ 2 = rho -> ipr eta eta = plen e a sigma ^+ 2).
Proof.
move=> nz; rewrite (compact_shift qr eig) => E.
have nd i : d 0 i + (gamma + sigma) != 0 by have := nz (lift ord_max i); rewrite e_lift addrA.
have nt : gamma + sigma != 0 by have := nz ord_max; rewrite e_max.
rewrite (solve_len Po nd nt E) plen_sq sum_last e_max.
have -> : \sum_j (a (lift ord_max j) / (e (lift ord_max j) + sigma)) ^+ 2 =
          \sum_i ((P^T *m g) i 0 / (d 0 i + (gamma + sigma))) ^+ 2.
  by apply: eq_bigr => j _; rewrite a_lift e_lift addrA.
have t2 : 0 <= ((gamma + sigma) ^+ 2)^-1 by rewrite invr_ge0 sqr_ge0.
rewrite exprMn exprVn -addrA !ler_add2l -mulrDl; split; last by move=> ->.
by rewrite !ler_wpmul2r ?akp2_le ?akp2_ge.
Qed.

(** ** The interior step *)
Lemma tmpvE : tmpv QR EIG tolN Psi M g gamma = plen Lam a 0.
Proof.
rewrite /tmpv /plen; congr Num.sqrt; apply: eq_bigr => i _.
by rewrite addr0 expr2 mulrACA mulrA.
Qed.

Lemma spec_pos sigma : (forall i, 0 < e i + sigma) -> positive (B + sigma%:M).
Proof.
move=> h; rewrite (compact_shift qr eig); apply: (sh_pos Po); last by have := h ord_max; rewrite e_max.
by move=> i; have := h (lift ord_max i); rewrite e_lift addrA.
Qed.
Lemma spec_nonneg sigma : (forall i, 0 <= e i + sigma) -> nonnegative (B + sigma%:M).
Proof.
move=> h; rewrite (compact_shift qr eig); apply: (sh_nonneg Po); last by have := h ord_max; rewrite e_max.
by move=> i; have := h (lift ord_max i); rewrite e_lift addrA.
Qed.
Lemma pos_nonneg m (C : 'M[R]_m) : positive C -> nonnegative C.
Proof.
move=> h v; case: (eqVneq v 0) => [->|v0]; last by rewrite ltW // h.
by rewrite mulmx0 iprE inner0r.
Qed.

Lemma smw_st st tau o st' : smw QR QRk meps Psi M g st tau = Step o st' -> st = st'.
Proof. by rewrite /smw; case: ifP => // _; case: ifP => // _ [_ ->]. Qed.
Lemma hard_st o st : hard QR EIG tolN late Psi M g gamma Delta = Step o st -> st = NegativeCurvature.
Proof. by rewrite /hard; do 7?[case: ifP => // _]; case=> _ ->. Qed.

Lemma interior_run eta : sub = Step eta Minimum ->
  [/\ 0 < lmin, plen Lam a 0 <= Delta & smw QR QRk meps Psi M g Minimum gamma = Step eta Minimum].
Proof.
rewrite /subproblem -tmpvE; case: ifP => [/andP[l0 le] E|_]; first by split.
case: ifP => _; first by move/hard_st.
by case: newton => // s /smw_st.
Qed.

Lemma interior eta : qr_at QRk (vw QR Psi M gamma) -> accepted (100%:R * meps) (QRk (vw QR Psi M gamma)).2 ->
  sub = Step eta Minimum ->
  [/\ B *m eta = - g, positive B, (forall v, quad B g eta <= quad B g v),
      ipr eta eta <= Delta ^+ 2 + tolN / gamma ^+ 2 &
      (rho = 0 \/ tolN <= rho) -> ipr eta eta <= Delta ^+ 2].
Proof.
move=> qk ac /interior_run [l0 le E].
have Lp i : 0 < Lam i by exact: lt_le_trans (lmin_le i).
have LE i : Lam i = e i by exact: Lam_pos.
have ep i : 0 < e i + 0 by rewrite addr0 -LE.
have g0 : gamma = gamma + 0 by rewrite addr0.
rewrite g0 in qk ac E.
have [t0 E1] := smw_eq qr Mu qk ac E; rewrite addr0 in t0.
have B0 : B + 0%:M = B by rewrite raddf0 addr0.
have pos : positive B by rewrite -B0; exact: spec_pos.
have nz i : e i + 0 != 0 by rewrite gt_eqF.
have pl : plen e a 0 = plen Lam a 0 by rewrite /plen; congr Num.sqrt; apply: eq_bigr => i _; rewrite LE.
have [/andP[_ up] eq] := len_bounds nz E1; rewrite pl in up eq.
have D2 : plen Lam a 0 ^+ 2 <= Delta ^+ 2 by rewrite ler_sqr ?nnegrE ?plen_ge0 // ltW.
have E2 : B *m eta = - g by rewrite -B0.
split=> //.
- by apply: best_everywhere => //; [exact: (compact_sym qr eig) | exact: pos_nonneg].
- by rewrite !addr0 in up *; apply: le_trans up _; rewrite ler_add2r.
- case: akp2_sq => [[h _] _|[h1 h2] [r0|]]; first by rewrite eq.
    by rewrite eq // h1 r0 expr2 mul0r.
  by rewrite leNgt h2.
Qed.

(** ** The secular function and Newton's method *)
Hypothesis resolved : forall i, a i = 0 \/ tolE < `|a i|.
Notation ph := (phi QR EIG tolN tolE Psi M g gamma Delta).

Lemma div3 (x y : R) : x / y / y / y = x / y ^+ 3.
Proof. by rewrite !exprS expr0 mulr1 !invfM !mulrA. Qed.
Lemma sumsE (I : pred 'I_k.+1) x : (forall i, ~~ I i -> a i = 0) ->
  sums QR EIG tolN Psi M g Delta I (fun i => Lam i + x) =
  if plen Lam a x == 0 then None else Some (secular Lam a Delta x, slope Lam a x).
Proof.
move=> h; rewrite /sums.
have E (c : 'I_k.+1 -> R) : (forall i, a i = 0 -> c i = 0) -> \sum_(i | I i) c i = \sum_i c i.
  move=> hc; rewrite [RHS](bigID I) /= [X in _ = _ + X]big1 ?addr0 // => i /h; exact: hc.
have -> : \sum_(i | I i) a i * a i / (Lam i + x) / (Lam i + x) = \sum_i (a i / (Lam i + x)) ^+ 2.
  rewrite E; last by move=> i ->; rewrite !mul0r.
  by apply: eq_bigr => i _; rewrite expr2 mulrACA mulrA.
rewrite -/(plen Lam a x); case: ifP => // _; congr (Some (_, _)); first by rewrite /secular !mul1r.
rewrite E; last by move=> i ->; rewrite !mul0r.
rewrite div3; congr (_ / _); apply: eq_bigr => i _; by rewrite div3 expr2.
Qed.
Lemma phiE x : (forall i, tolE < Lam i + x) ->
  ph x = if plen Lam a x == 0 then None else Some (secular Lam a Delta x, slope Lam a x).
Proof.
move=> tx; have nt i : (`|Lam i + x| < tolE) = false.
  by rewrite gtr0_norm; [apply/negbTE; rewrite -leNgt ltW | exact: lt_trans (tx i)].
rewrite /phi; case: ifP => _; last by rewrite sumsE.
case: existsP => [[i]|_]; first by rewrite nt andbF.
rewrite sumsE // => i; rewrite negb_and => /orP[]; last first.
  by rewrite gtr0_norm ?tx //; exact: lt_trans (tx i).
by case: (resolved i) => // ->.
Qed.

Definition two := exists i j, [/\ a i != 0, a j != 0 & Lam i != Lam j].
Lemma nonzero x : 0 < plen Lam a x -> exists s, a s != 0.
Proof.
move=> p0; case: (pickP (fun i => a i != 0)) => [s h|h]; first by exists s.
move: p0; rewrite /plen big1 ?sqrtr0 ?ltxx // => i _.
by have /negbFE/eqP -> := h i; rewrite mul0r expr2 mul0r.
Qed.
Lemma newton_left j x s : (forall i, tolE < Lam i + x) -> Delta <= plen Lam a x ->
  newton QR EIG tolN tolE meps Psi M g gamma Delta j x = Some s ->
  [/\ x <= s, Delta <= plen Lam a s,
      `|secular Lam a Delta s| <= meps \/ s = iter j (nstep Lam a Delta) x &
      Delta < plen Lam a x -> two -> Delta < plen Lam a s].
Proof.
elim: j x => [|j IH] x tx le /=; first by case=> <-; split=> //; right.
have p0 : 0 < plen Lam a x by exact: lt_le_trans le.
rewrite phiE // gt_eqF //; case: ifP => [sm [<-]|_]; first by split=> //; left.
have [s0 as0] := nonzero p0.
have t0 i : 0 < Lam i + x by exact: lt_trans (tx i).
rewrite gt_eqF ?(slope_gt0 as0) // -/(nstep Lam a Delta x) => E.
have [xy [le' st]] := nstep_left D0 as0 t0 le.
have ty i : tolE < Lam i + nstep Lam a Delta x by apply: lt_le_trans (tx i) _; rewrite ler_add2l.
have [h1 h2 h3 h4] := IH _ ty le' E; split=> //; first exact: le_trans h1.
  by case: h3 => [|->]; [left | right; rewrite -iterSr].
by move=> lt tw; apply: h4 => //; have [] := st lt tw.
Qed.

Lemma newton_some j x : (forall i, tolE < Lam i + x) -> Delta <= plen Lam a x ->
  exists s, newton QR EIG tolN tolE meps Psi M g gamma Delta j x = Some s.
Proof.
elim: j x => [|j IH] x tx le /=; first by exists x.
have p0 : 0 < plen Lam a x by exact: lt_le_trans le.
rewrite phiE // gt_eqF //; case: ifP => _; first by exists x.
have [s0 as0] := nonzero p0.
have t0 i : 0 < Lam i + x by exact: lt_trans (tx i).
rewrite gt_eqF ?(slope_gt0 as0) // -/(nstep Lam a Delta x).
have [xy [le' st]] := nstep_left D0 as0 t0 le.
by apply: IH => // i; apply: lt_le_trans (tx i) _; rewrite ler_add2l.
Qed.

(** ** The boundary step *)
Hypothesis exact : forall i, Lam i = e i.
Notation st0 := (start QR EIG tolN Psi M g gamma Delta).
Hypothesis separated : tolE < lmin + st0.

Lemma boundary_run eta : sub = Step eta Exceeded -> exists s,
  newton QR EIG tolN tolE meps Psi M g gamma Delta 10 st0 = Some s /\
  smw QR QRk meps Psi M g Exceeded (gamma + s) = Step eta Exceeded /\ (0 < lmin -> Delta < plen Lam a 0).
Proof.
rewrite /subproblem tmpvE; case: ifP => [_ /smw_st //|c1].
case: ifP => [_ /hard_st //|_]; case: newton => // s E; exists s; split=> //; split=> // l0.
by move: c1; rewrite l0 /= => /negbT; rewrite -ltNge.
Qed.
Lemma start_ok : (0 < lmin -> Delta < plen Lam a 0) -> (forall i, tolE < Lam i + st0) /\ 0 <= st0 /\ Delta <= plen Lam a st0 /\
  (0 < lmin -> Delta < plen Lam a st0).
Proof.
move=> hp; split; first by move=> i; apply: lt_le_trans separated _; rewrite ler_add2r lmin_le.
move: separated; rewrite /start; case: ifP => [l0 _|l0].
  by split=> //; split; [rewrite ltW // hp | move=> _; exact: hp].
case: ifP => [sg _|_]; last by rewrite subrr ltNge ltW.
split; first exact: bmax_x0.
split=> //; move: sg; rewrite /sigmaHat; set sh := \big[_/_]_i _ => sg.
have [E|[i E]] := bmax_in (fun i => a i / Delta - Lam i) 0; rewrite -/sh in E.
  by move: sg; rewrite E oppr_lt0 l0.
have ai : 0 < a i / Delta.
  move: sg; rewrite E => h; have := lt_le_trans h (lexx _); rewrite ltr_subr_addr => h2; apply: le_lt_trans h2.
  by rewrite addrC subr_ge0 lmin_le.
have ti : Lam i + sh = a i / Delta by rewrite E addrC subrK.
have E2 : Num.sqrt ((a i / (Lam i + sh)) ^+ 2) = Delta.
  rewrite ti sqrtr_sqr invfM invrK mulrA mulfV ?mul1r ?gtr0_norm //.
  by apply/eqP => a0; move: ai; rewrite a0 mul0r ltxx.
rewrite -{1}E2.
apply: ler_wsqrtr.
by rewrite (bigD1 i) //= ler_addl; apply: sumr_ge0 => j _; exact: sqr_ge0.
Qed.

Lemma boundary eta :
  (forall s, newton QR EIG tolN tolE meps Psi M g gamma Delta 10 st0 = Some s ->
     qr_at QRk (vw QR Psi M (gamma + s)) /\ accepted (100%:R * meps) (QRk (vw QR Psi M (gamma + s))).2) ->
  sub = Step eta Exceeded ->
  exists s, [/\ 0 <= s, (B + s%:M) *m eta = - g, positive (B + s%:M), best_within B g eta (ipr eta eta) & 
    [/\ Delta ^+ 2 <= ipr eta eta,
        `|secular e a Delta s| <= meps \/ s = iter 10 (nstep e a Delta) st0 & 
        0 < lmin -> two -> Delta ^+ 2 < ipr eta eta]].
Proof.
move=> hk /boundary_run [s [En [Es hp]]]; have [qk ac] := hk s En; exists s.
have [tx [s0 [le lt]]] := start_ok hp.
have [h1 h2 h3 h4] := newton_left tx le En.
have [t0 E1] := smw_eq qr Mu qk ac Es.
have ep i : 0 < e i + s.
  rewrite -exact; apply: lt_le_trans tE _; apply: le_trans (ltW (tx i)) _; by rewrite ler_add2l.
have nz i : e i + s != 0 by rewrite gt_eqF.
have [/andP[lo _] _] := len_bounds nz E1.
have eqL x : plen e a x = plen Lam a x by rewrite /plen; congr Num.sqrt; apply: eq_bigr => i _; rewrite exact.
have pos := spec_pos ep.
have s1 : 0 <= s by exact: le_trans h1.
split; [exact: s1 | exact: E1 | exact: pos | |].
  exact: (best_here (compact_sym qr eig gamma) E1 (pos_nonneg pos) s1).
split.
- by apply: le_trans lo; rewrite eqL ler_sqr ?nnegrE ?plen_ge0 // ltW.
- case: h3 => [h|->]; [left | right].
    by move: h; rewrite /secular eqL.
  apply: eq_iter => x; rewrite /nstep /secular eqL /slope eqL; congr (_ - _ / (_ / _)).
  by apply: eq_bigr => i _; rewrite exact.
- move=> l0 tw; apply: lt_le_trans lo; rewrite eqL ltr_sqr ?nnegrE ?plen_ge0 ?ltW //; exact: h4 (lt l0) tw.
Qed.
End proofs.
