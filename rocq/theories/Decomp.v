(** The decompositions that LAPACK computes exist for every matrix: the assumptions of the theorems
    about routines that return them can be met. *)
From mathcomp Require Import all_ssreflect perm all_algebra.
From mathcomp.real_closed Require Import complex.
Require Import Ring Field.
From Verif Require Import MxTac StiefelModel StiefelSpec StiefelProofs StiefelPolar StiefelRetr SPDSpec SPDProofs.
Import Order.TTheory GRing.Theory Num.Theory.
Set Implicit Arguments.
Unset Strict Implicit.
Local Open Scope ring_scope.

Section exists_.
Variable R : rcfType.
Add Field dec_field : (rcf_field R).

(** ** QR *)
Lemma kernel_col a b (A : 'M[R]_(a, b)) : (a < b)%N -> exists u : 'cV[R]_b, u != 0 /\ A *m u = 0.
Proof.
move=> H; have : kermx A^T != 0.
  by rewrite kermx_eq0 /row_free neq_ltn (leq_ltn_trans (rank_leq_col A^T) H).
move/rowV0Pn => [u /sub_kermxP Hu Hn]; exists u^T; split; first by rewrite trmx_eq0.
by apply: trmx_inj; rewrite trM trmxK Hu trmx0.
Qed.
Lemma norm_col n (u : 'cV[R]_n) : u != 0 -> exists c, c != 0 /\ orthonormal (c *: u).
Proof.
move=> Hu; have Hp : 0 < (u^T *m u) 0 0.
  rewrite lt_def; apply/andP; split; first by apply/eqP => /sq_norm E; rewrite E eqxx in Hu.
  by have := inner_ge0 u; rewrite /inner /mxtrace big_ord1.
exists (Num.sqrt ((u^T *m u) 0 0))^-1; split; first by rewrite invr_eq0 sqrtr_eq0 -ltNge.
apply/matrixP => i j; rewrite !ord1 /orthonormal trZ -scalemxAl -scalemxAr scalerA [LHS]mxE [in RHS]mxE eqxx.
by move: (_ 0 0) Hp => s Hs; rewrite -invfM -expr2 sqr_sqrtr ?mulVf ?ltW //; exact: lt0r_neq0.
Qed.
Lemma orth_extend m n (Q : 'M[R]_(m, n)) (a : 'cV[R]_m) : orthonormal Q -> (n < m)%N ->
  exists q c, orthonormal (row_mx Q q) /\ a = Q *m (Q^T *m a) + c *: q.
Proof.
move=> HQ Hnm; set b := a - Q *m (Q^T *m a).
have Qb : Q^T *m b = 0 by rewrite /b mulmxBr mulmxA HQ mul1mx subrr.
have [q [c [Hq HQq E]]] : exists q c, [/\ orthonormal q, Q^T *m q = 0 & b = c *: q].
  case: (altP (b =P 0)) => [E|Hb].
    have [u [Hu HQu]] := kernel_col Q^T Hnm; have [c [_ Hc]] := norm_col Hu.
    by exists (c *: u), 0; split=> //; rewrite ?scale0r // -scalemxAr HQu scaler0.
  have [c [Hc Ho]] := norm_col Hb; exists (c *: b), c^-1; split=> //.
    by rewrite -scalemxAr Qb scaler0.
  by rewrite scalerA mulVf // scale1r.
exists q, c; split; last by rewrite -E /b addrC subrK.
rewrite /orthonormal tr_row_mx mul_col_row HQ HQq Hq.
have -> : q^T *m Q = 0 by have := congr1 trmx HQq; rewrite trM trmxK trmx0.
by rewrite -scalar_mx_block.
Qed.
Lemma qr_exists m n (A : 'M[R]_(m, n)) : (n <= m)%N -> exists Q r, is_qr A Q r.
Proof.
elim: n A => [|n IH] A Hn.
  exists A, 0; split; [by apply/matrixP => ? [] | by apply/matrixP => [[]] | by move=> []].
have [B [a EA]] : exists (B : 'M_(m, n)) (a : 'cV_m), A = castmx (erefl, addn1 n) (row_mx B a).
  exists (lsubmx (castmx (erefl, esym (addn1 n)) A)), (rsubmx (castmx (erefl, esym (addn1 n)) A)).
  by rewrite hsubmxK castmx_comp castmx_id.
have [Q [r [EB HQ Hr]]] := IH B (ltnW Hn).
have [q [c [HQq Ea]]] := orth_extend a HQ Hn.
exists (castmx (erefl, addn1 n) (row_mx Q q)), (castmx (addn1 n, addn1 n) (block_mx r (Q^T *m a) 0 (c%:M))); split.
- rewrite EA; case: _ / (addn1 n) => /=; rewrite !castmx_id mul_row_block mulmx0 addr0 -EB; congr row_mx.
  by rewrite {1}Ea mul_mx_scalar.
- by move: HQq; rewrite /orthonormal; case: _ / (addn1 n); rewrite !castmx_id.
move=> i j; rewrite castmxE /= => Hij.
have H (i' j' : 'I_(n + 1)) : (j' < i')%N -> block_mx r (Q^T *m a) 0 (c%:M) i' j' = 0.
  case: (split_ordP i') => a' ->; case: (split_ordP j') => b' ->; rewrite ?block_mxEul ?block_mxEur ?block_mxEdl ?block_mxEdr => H.
  - exact: Hr.
  - by move: H => /=; rewrite ltnNge (ltnW (ltn_addr _ (ltn_ord a'))).
  - by rewrite mxE.
  by rewrite !ord1 in H; rewrite ltnn in H.
exact: H.
Qed.

(** ** Eigenvalues *)
Local Notation Re := (@complex.Re R).
Local Notation Im := (@complex.Im R).
Lemma ReM (z : R[i]) (a : R) : Re (z * (real_complex R a)) = Re z * a.
Proof. by case: z => b c /=; rewrite mulr0 subr0. Qed.
Lemma ImM (z : R[i]) (a : R) : Im (z * (real_complex R a)) = Im z * a.
Proof. by case: z => b c /=; rewrite mulr0 add0r. Qed.
Lemma real_eigen n (S : 'M[R]_n) : (0 < n)%N -> symmetric S -> exists lam (u : 'cV[R]_n), u != 0 /\ S *m u = lam *: u.
Proof.
move=> Hn HS; have [a /eigenvalueP [v Ev Hv]] := Theorem7' (map_mx (real_complex R) S) Hn.
pose u : 'rV[R]_n := map_mx Re v; pose w : 'rV[R]_n := map_mx Im v.
have Eu : u *m S = Re a *: u - Im a *: w.
  apply/matrixP => i j; have := congr1 (fun M : 'rV_n => Re (M i j)) Ev; rewrite !mxE /= raddf_sum /=.
  move=> E; transitivity (\sum_k Re (v i k * map_mx (real_complex R) S k j)).
    by apply: eq_bigr => k _; rewrite !mxE ReM.
  by rewrite E; case: (a) (v i j) => a1 a2 [b1 b2].
have Ew : w *m S = Re a *: w + Im a *: u.
  apply/matrixP => i j; have := congr1 (fun M : 'rV_n => Im (M i j)) Ev; rewrite !mxE /= raddf_sum /=.
  move=> E; transitivity (\sum_k Im (v i k * map_mx (real_complex R) S k j)).
    by apply: eq_bigr => k _; rewrite !mxE ImM.
  by rewrite E; case: (a) (v i j) => a1 a2 [b1 b2].
have Hb : Im a = 0.
  have : inner (u *m S) w = inner u (w *m S) by rewrite inner_mulr HS.
  rewrite Eu Ew innerBl innerDr !innerZl !innerZr => /eqP; rewrite -subr_eq0.
  have -> : Re a * inner u w - Im a * inner w w - (Re a * inner u w + Im a * inner u u) = - (Im a * (inner u u + inner w w)).
    by move: (inner u w) (inner w w) (inner u u) => x y z; rng R.
  rewrite oppr_eq0 mulf_eq0 => /orP [/eqP //|]; rewrite paddr_eq0 ?inner_ge0 // => /andP [/eqP/inner_eq0 H1 /eqP/inner_eq0 H2].
  case/eqP: Hv; apply/matrixP => i j.
  have := congr1 (fun M : 'rV_n => M i j) H1; have := congr1 (fun M : 'rV_n => M i j) H2; rewrite !mxE.
  by case: (v i j) => b c /= -> ->.
have key (z : 'rV[R]_n) : z != 0 -> z *m S = Re a *: z -> exists lam (u : 'cV[R]_n), u != 0 /\ S *m u = lam *: u.
  move=> Hz Ez; exists (Re a), z^T; split; first by rewrite trmx_eq0.
  by rewrite -{1}HS -trM Ez trZ.
case: (altP (u =P 0)) => [E0|Hu]; last by apply: (key u) => //; rewrite Eu Hb scale0r subr0.
apply: (key w); last by rewrite Ew Hb scale0r addr0.
apply/eqP => E1; case/eqP: Hv; apply/matrixP => i j.
have := congr1 (fun M : 'rV_n => M i j) E0; have := congr1 (fun M : 'rV_n => M i j) E1; rewrite !mxE.
by case: (v i j) => b c /= -> ->.
Qed.
Lemma orth_complete n (u : 'cV[R]_(1 + n)) : orthonormal u -> exists W : 'M[R]_(1 + n, n), orthonormal (row_mx u W).
Proof.
move=> Hu; have [Q [r HQ]] := qr_exists (row_mx u (0 : 'M[R]_(1 + n, n))) (leqnn _).
have [E Ho Hr] := HQ; exists (rsubmx Q).
have E1 : u = r 0 0 *: lsubmx Q.
  have := congr1 lsubmx E; rewrite row_mxKl => ->.
  have Er : lsubmx r = col_mx (r 0 0)%:M 0.
    apply/matrixP => i j; rewrite !mxE !ord1; case: splitP => l Hl; rewrite mxE.
      by rewrite !ord1 eqxx mulr1n; congr (r _ _); apply: val_inj; rewrite /= ?Hl ?ord1.
    by apply: Hr; rewrite Hl.
  have -> : lsubmx (Q *m r) = Q *m lsubmx r by rewrite -{1}(hsubmxK r) mul_mx_row row_mxKl.
  by rewrite Er -{1}(hsubmxK Q) mul_row_col mulmx0 addr0 mul_mx_scalar.
have := Ho; rewrite /orthonormal -{1 2}(hsubmxK Q) tr_row_mx mul_col_row (@scalar_mx_block _ 1 n 1) => /eq_block_mx [H1 H2 H3 H4].
rewrite tr_row_mx mul_col_row Hu H4 {1 2}E1 trZ -scalemxAl -scalemxAr H2 H3 !scaler0.
by [].
Qed.
Lemma spectral_step n (S : 'M[R]_(1 + n)) :
  (forall T : 'M[R]_n, symmetric T -> exists V lam, is_eig T V lam) -> symmetric S -> exists V lam, is_eig S V lam.
Proof.
move=> IH HS; have [lam [u0 [Hu0 Eu0]]] := real_eigen (ltn0Sn n) HS.
have [c [Hc Hu]] := norm_col Hu0; set u := c *: u0 in Hu.
have Eu : S *m u = lam *: u by rewrite /u -scalemxAr Eu0 !scalerA mulrC.
move: u Hu Eu => u Hu Eu {Hu0 Eu0 Hc}.
have [W HW] := orth_complete Hu.
have := HW; rewrite /orthonormal tr_row_mx mul_col_row (@scalar_mx_block _ 1 n 1) => /eq_block_mx [H1 H2 H3 H4].
have HT : symmetric (W^T *m S *m W) by rewrite /symmetric !trM trmxK HS mulmxA.
have [V [l [EV HV]]] := IH _ HT.
have HO : row_mx u W *m (row_mx u W)^T = 1%:M by apply: mulmx1C.
have ES : (row_mx u W)^T *m S *m row_mx u W = block_mx lam%:M 0 0 (W^T *m S *m W).
  rewrite tr_row_mx mul_col_mx mul_col_row.
  have Eu' : u^T *m S = lam *: u^T by have := congr1 trmx Eu; rewrite trM HS trZ.
  have E1 : W^T *m S *m u = 0 by rewrite -mulmxA Eu -scalemxAr H3 scaler0.
  by rewrite Eu' E1 -!scalemxAl H2 scaler0 H1 scalemx1.
exists (row_mx u W *m block_mx 1%:M 0 0 V), (row_mx lam%:M l); split.
  have -> : S = row_mx u W *m ((row_mx u W)^T *m S *m row_mx u W) *m (row_mx u W)^T.
    by rewrite !mulmxA HO mul1mx -mulmxA HO mulmx1.
  rewrite ES trM !mulmxA; congr (_ *m _); rewrite -!mulmxA; congr (_ *m _).
  rewrite diag_mx_row tr_block_mx !trmx0 trmx1 !mulmx_block !mulmx0 !mul0mx !addr0 !add0r mulmx1 mul1mx !mulmxA -EV.
  by congr block_mx; rewrite ?mulmx0 //; apply/matrixP => i j; rewrite !ord1 !mxE eqxx.
rewrite /orthonormal trM !mulmxA -[_ *m (row_mx u W)^T *m row_mx u W]mulmxA HW mulmx1.
rewrite tr_block_mx !trmx0 trmx1 mulmx_block !mulmx0 !mul0mx !addr0 !add0r mulmx1 HV.
by rewrite (@scalar_mx_block _ 1 n 1).
Qed.
Lemma spectral n (S : 'M[R]_n) : symmetric S -> exists V lam, is_eig S V lam.
Proof.
elim: n S => [|n IH] S HS; last exact: (@spectral_step n).
by exists 0, 0; split; apply/matrixP => [[]].
Qed.
Lemma eig_entry n (V : 'M[R]_n) lam i j : (V *m diag_mx lam *m V^T) i j = \sum_k V i k * lam 0 k * V j k.
Proof. by rewrite mxE; apply: eq_bigr => k _; rewrite mul_mx_diag !mxE. Qed.
Lemma spectral_asc n (S : 'M[R]_n) : symmetric S -> exists V lam, is_eig S V lam /\
  forall i j : 'I_n, (i <= j)%N -> lam 0 i <= lam 0 j.
Proof.
move=> /spectral [V [lam [ES HV]]]; pose t := [tuple lam 0 i | i < n].
have : perm_eq (sort_tuple <=%O t) t by rewrite perm_sort.
move/tuple_permP => [s Es].
have Hs (i : 'I_n) : lam 0 (s i) = tnth (sort_tuple <=%O t) i.
  have := congr1 (fun q => nth 0 q i) Es; rewrite -(tnth_nth 0 (sort_tuple _ _) i) => ->.
  by rewrite (nth_map i) ?size_enum_ord // nth_ord_enum tnth_mktuple.
exists (\matrix_(i, j) V i (s j)), (\row_j lam 0 (s j)); split; last first.
  move=> i j Hij; rewrite !mxE !Hs !(tnth_nth 0).
  apply: (sorted_leq_nth le_trans lexx) => //; rewrite ?inE ?size_tuple //.
  by apply: (sort_sorted (@le_total _ R)).
split.
  rewrite ES; apply/matrixP => i j; rewrite !eig_entry (reindex_inj (@perm_inj _ s)) /=.
  by apply: eq_bigr => k _; rewrite !mxE.
apply/matrixP => i j; rewrite mxE.
have := congr1 (fun M : 'M_n => M (s i) (s j)) HV; rewrite mxE [in X in X -> _]mxE (inj_eq (@perm_inj _ s)) => E.
rewrite [RHS]mxE -E; apply: eq_bigr => k _; by rewrite !mxE.
Qed.

(** ** Singular values *)
Lemma diag_gram n (r : 'M[R]_n) (d : 'rV[R]_n) : upper r -> r^T *m r = diag_mx d ->
  (forall i j : 'I_n, (i <= j)%N -> d 0 j <= d 0 i) -> r = diag_mx (\row_i r i i).
Proof.
move=> Hu E Hd; have En (i j : 'I_n) : \sum_k r k i * r k j = d 0 i *+ (i == j).
  have := congr1 (fun M : 'M_n => M i j) E; rewrite !mxE => <-.
  by apply: eq_bigr => k _; rewrite mxE.
have Hz (j : 'I_n) : d 0 j = 0 -> forall k, r k j = 0.
  move=> H0 k; have := En j j; rewrite eqxx mulr1n H0 => /eqP; rewrite psumr_eq0.
    by move/allP/(_ k (mem_index_enum _)); rewrite /= -expr2 sqrf_eq0 => /eqP.
  by move=> l _; rewrite -expr2 sqr_ge0.
have Hge (j : 'I_n) : 0 <= d 0 j.
  by have := En j j; rewrite eqxx mulr1n => <-; apply: sumr_ge0 => l _; rewrite -expr2 sqr_ge0.
have key m : forall i j : 'I_n, (i < m)%N -> (i < j)%N -> r i j = 0.
  elim: m => [//|m IH] i j Hi Hij.
  case: (altP (d 0 i =P 0)) => [H0|Hn].
    by apply: Hz; apply/eqP; rewrite eq_le Hge andbT -H0 Hd // ltnW.
  have Es (l : 'I_n) : \sum_k r k i * r k l = r i i * r i l.
    rewrite (bigD1 i) //= big1 ?addr0 // => k Hk; case: (ltngtP k i) => Hki.
    - by rewrite (IH k i) ?mul0r // (leq_trans Hki).
    - by rewrite (Hu k i) ?mul0r.
    by move/val_inj: Hki Hk => ->; rewrite eqxx.
  have := En i j; rewrite Es; have -> : (i == j) = false by apply/eqP => E'; rewrite E' ltnn in Hij.
  rewrite mulr0n => /eqP; rewrite mulf_eq0 => /orP [/eqP H0|/eqP //].
  by have := En i i; rewrite Es eqxx mulr1n H0 mul0r => /esym/eqP; rewrite (negbTE Hn).
apply/matrixP => i j; rewrite !mxE; case: (ltngtP i j) => Hij.
- have -> : (i == j) = false by apply/eqP => E'; rewrite E' ltnn in Hij.
  exact: (key i.+1).
- have -> : (i == j) = false by apply/eqP => E'; rewrite E' ltnn in Hij.
  exact: Hu.
by move/val_inj: Hij => ->; rewrite eqxx.
Qed.
Lemma svd_sorted n (A : 'M[R]_n) : exists U S Vt, is_svd A U S Vt /\
  forall i j : 'I_n, (i <= j)%N -> S 0 j <= S 0 i.
Proof.
have HS : symmetric (- (A^T *m A)) by rewrite /symmetric trN trM trmxK.
have [V [lam [[EV HV] Ha]]] := spectral_asc HS.
have [Q [r [Eq HQ Hr]]] := qr_exists (A *m V) (leqnn n).
have HV' : V *m V^T = 1%:M by apply: mulmx1C.
have Er : r^T *m r = diag_mx (- lam).
  have -> : r^T *m r = (A *m V)^T *m (A *m V).
    by rewrite Eq trM !mulmxA -[r^T *m Q^T *m Q]mulmxA HQ mulmx1.
  have -> : (A *m V)^T *m (A *m V) = - (V^T *m - (A^T *m A) *m V) by rewrite mulmxN mulNmx opprK trM !mulmxA.
  by rewrite EV !mulmxA HV mul1mx -mulmxA HV mulmx1 raddfN.
have Hd := diag_gram Hr Er (fun i j H => ltac:(by rewrite !mxE ler_opp2 Ha)).
exists (Q *m diag_mx (sgn_row r)), (\row_i `|r i i|), V^T; split; last first.
  have E2 (i : 'I_n) : r i i ^+ 2 = - lam 0 i.
    have := congr1 (fun M : 'M_n => M i i) Er; rewrite Hd tr_diag_mx mulmx_diag !mxE eqxx !mulr1n => <-.
    by rewrite expr2.
  move=> i j Hij; rewrite !mxE -(ler_pexpn2r (isT : (0 < 2)%N)) ?nnegrE ?normr_ge0 //.
  by rewrite !real_normK ?num_real // !E2 ler_opp2 Ha.
split.
- rewrite -[A]mulmx1 -HV' mulmxA Eq; congr (_ *m _); rewrite -mulmxA; congr (_ *m _).
  rewrite {1}Hd mulmx_diag; congr diag_mx; apply/matrixP => z i; rewrite !mxE.
  case: ltP => H; first by rewrite ltr0_norm // mulN1r opprK.
  by rewrite ger0_norm // mul1r.
- rewrite /orthonormal trM tr_diag_mx !mulmxA -[diag_mx _ *m Q^T *m Q]mulmxA HQ mulmx1; exact: sgn_sq.
- by rewrite trmxK.
by move=> i; rewrite mxE normr_ge0.
Qed.
Lemma svd_exists n (A : 'M[R]_n) : exists U S Vt, is_svd A U S Vt.
Proof. by have [U [S [Vt [H _]]]] := svd_sorted A; exists U, S, Vt. Qed.
Lemma hhr_exists p k (A : 'M[R]_(p + k, p)) : exists Q r, is_hhr A Q r.
Proof.
have [Q [r [E Ho Hr]]] := qr_exists (row_mx A (0 : 'M[R]_(p + k, k))) (leqnn _).
exists Q, (ulsubmx r); split=> //.
  have -> : A = Q *m lsubmx r.
    have := congr1 lsubmx E; rewrite row_mxKl => ->.
    by rewrite -{1}(hsubmxK r) mul_mx_row row_mxKl.
  rewrite mulmxA Ho mul1mx -[lsubmx r]vsubmxK; congr col_mx.
    by apply/matrixP => i j; rewrite !mxE.
  apply/matrixP => i j; rewrite !mxE; apply: Hr => /=; by rewrite ltn_addr.
by move=> i j Hij; rewrite !mxE; apply: Hr.
Qed.
(** ** Sylvester equations *)
Lemma posdef_eig n (A V : 'M[R]_n) lam : posdef A -> is_eig A V lam -> forall i, 0 < lam 0 i.
Proof.
move=> [_ HA] [E HV] i; have Hv : col i V != 0.
  apply/eqP => H0; have := congr1 (fun M : 'M_n => M i i) HV; rewrite !mxE eqxx => /eqP.
  rewrite big1 ?[0 == _]eq_sym ?oner_eq0 // => k _; rewrite mxE.
  by have := congr1 (fun M : 'cV_n => M k 0) H0; rewrite !mxE => ->; rewrite mulr0.
have := HA _ Hv.
have -> : (col i V)^T *m A *m col i V = row i (V^T *m A *m V) *m delta_mx i 0.
  by rewrite colE trM trmx_delta -!rowE !row_mul !mulmxA.
have -> : V^T *m A *m V = diag_mx lam by rewrite E !mulmxA HV mul1mx -mulmxA HV mulmx1.
by rewrite -colE !mxE eqxx mulr1n.
Qed.
(** ** Cholesky *)
Lemma chol_of n (A V Q r : 'M[R]_n) (lam : 'rV[R]_n) : posdef A -> is_eig A V lam ->
  is_qr (diag_mx (\row_i Num.sqrt (lam 0 i)) *m V^T) Q r -> is_chol A (r^T *m diag_mx (sgn_row r)).
Proof.
move=> HA He [Eq HQ Hr]; have Hl := posdef_eig HA He; have [E HV] := He.
have EA : A = r^T *m r.
  have -> : r^T *m r = (Q *m r)^T *m (Q *m r) by rewrite trM !mulmxA -[r^T *m Q^T *m Q]mulmxA HQ mulmx1.
  rewrite -Eq trM trmxK tr_diag_mx !mulmxA -[V *m _ *m diag_mx _]mulmxA mulmx_diag E; congr (_ *m diag_mx _ *m _).
  by apply/matrixP => i j; rewrite !mxE -expr2 sqr_sqrtr ?ord1 //; exact: ltW.
have Hn (i : 'I_n) : r i i != 0.
  have : \det A != 0.
    rewrite E !det_mulmx det_diag det_tr mulrAC -expr2 mulf_neq0 //.
      apply: expf_neq0; have := congr1 determinant HV; rewrite det_mulmx det_tr det1 => H.
      by apply/eqP => H0; rewrite H0 mul0r in H; have := oner_eq0 R; rewrite -H eqxx.
    by apply/prodf_neq0 => j _; exact: lt0r_neq0.
  rewrite EA det_mulmx det_tr mulf_eq0 orbb -det_tr det_trig; last first.
    by apply/is_trig_mxP => a b Hab; rewrite mxE; apply: Hr.
  by move/prodf_neq0/(_ i isT); rewrite mxE.
split.
- rewrite trM trmxK tr_diag_mx mulmxA -[_ *m diag_mx _ *m diag_mx _]mulmxA sgn_sq mulmx1 //.
- by move=> i j Hij; rewrite mul_mx_diag !mxE (Hr j i Hij) mul0r.
move=> i; rewrite mul_mx_diag !mxE; case: (ltP (r i i) 0) => H; first by rewrite mulrN1 oppr_gt0.
by rewrite mulr1 lt_def Hn.
Qed.
Lemma sylvester_exists n (A B K : 'M[R]_n) : posdef A -> posdef B -> exists X, A *m X + X *m B = K.
Proof.
move=> HA HB; have [[HAs _] [HBs _]] := (HA, HB).
have [V [a Ea]] := spectral HAs; have [W [b Eb]] := spectral HBs.
have Pa := posdef_eig HA Ea; have Pb := posdef_eig HB Eb.
move: Ea Eb => [-> HV] [-> HW].
have HV' : V *m V^T = 1%:M by apply: mulmx1C.
have HW' : W *m W^T = 1%:M by apply: mulmx1C.
pose Y := \matrix_(i, j) ((V^T *m K *m W) i j / (a 0 i + b 0 j)).
exists (V *m Y *m W^T).
have -> : V *m diag_mx a *m V^T *m (V *m Y *m W^T) = V *m (diag_mx a *m Y) *m W^T.
  by rewrite !mulmxA -[_ *m V^T *m V]mulmxA HV mulmx1.
have -> : V *m Y *m W^T *m (W *m diag_mx b *m W^T) = V *m (Y *m diag_mx b) *m W^T.
  by rewrite !mulmxA -[_ *m W^T *m W]mulmxA HW mulmx1.
rewrite -mulmxDl -mulmxDr.
have -> : diag_mx a *m Y + Y *m diag_mx b = V^T *m K *m W.
  apply/matrixP => i j; rewrite mul_diag_mx mul_mx_diag [LHS]mxE [X in X + _]mxE [X in _ + X]mxE [Y i j]mxE.
  have : a 0 i + b 0 j != 0 by apply: lt0r_neq0; exact: addr_gt0.
  move: (a 0 i) (b 0 j) ((V^T *m K *m W) i j) => u v w Huv; move: Huv => /eqP Huv; fld R; exact: Huv.
by rewrite !mulmxA HV' mul1mx -mulmxA HW' mulmx1.
Qed.

(** ** Functions that return them *)
Definition upperb n (r : 'M[R]_n) := [forall i : 'I_n, forall j : 'I_n, (j < i)%N ==> (r i j == 0)].
Lemma upperP n (r : 'M[R]_n) : reflect (upper r) (upperb r).
Proof.
apply: (iffP forallP) => [H i j Hij|H i]; first by move/forallP/(_ j)/implyP/(_ Hij)/eqP: (H i).
by apply/forallP => j; apply/implyP => Hij; apply/eqP/H.
Qed.
Lemma qr_function m n : (n <= m)%N -> exists QR, forall A : 'M[R]_(m, n), qr_at QR A.
Proof.
move=> H; pose P (A : 'M[R]_(m, n)) (x : 'M[R]_(m, n) * 'M[R]_n) :=
  [&& A == x.1 *m x.2, x.1^T *m x.1 == 1%:M & upperb x.2].
have E A : exists x, P A x.
  have [Q [r [E1 E2 E3]]] := qr_exists A H; exists (Q, r); rewrite /P /= -E1 eqxx E2 eqxx; exact/upperP.
exists (fun A => xchoose (E A)) => A; case/and3P: (xchooseP (E A)) => /eqP E1 /eqP E2 /upperP E3; by split.
Qed.
Lemma eig_function n : exists EIG, forall S : 'M[R]_n, symmetric S -> eig_at EIG S /\
  forall i j : 'I_n, (i <= j)%N -> (EIG S).2 0 i <= (EIG S).2 0 j.
Proof.
pose P (S : 'M[R]_n) (x : 'M[R]_n * 'rV[R]_n) := (S == S^T) ==>
  [&& S == x.1 *m diag_mx x.2 *m x.1^T, x.1^T *m x.1 == 1%:M &
      [forall i : 'I_n, forall j : 'I_n, (i <= j)%N ==> (x.2 0 i <= x.2 0 j)]].
have E S : exists x, P S x.
  case: (altP (S =P S^T)) => [HS|/negbTE HS]; last by exists (0, 0); rewrite /P HS.
  have [V [lam [[E1 E2] E3]]] := spectral_asc (esym HS); exists (V, lam); rewrite /P /= -E1 eqxx E2 eqxx /=.
  apply/implyP => _; apply/forallP => i; apply/forallP => j; apply/implyP; exact: E3.
exists (fun S => xchoose (E S)) => S HS; have := xchooseP (E S); rewrite {1}/P HS eqxx /=.
case/and3P => /eqP E1 /eqP E2 /forallP E3; split; first by split.
by move=> i j; apply/implyP; move/forallP: (E3 i); apply.
Qed.
Lemma svd_function_sorted n : exists SVD, forall A : 'M[R]_n, svd_at SVD A /\
  forall i j : 'I_n, (i <= j)%N -> (SVD A).1.2 0 j <= (SVD A).1.2 0 i.
Proof.
pose P (A : 'M[R]_n) (x : 'M[R]_n * 'rV[R]_n * 'M[R]_n) :=
  [&& A == x.1.1 *m diag_mx x.1.2 *m x.2, x.1.1^T *m x.1.1 == 1%:M, x.2^T^T *m x.2^T == 1%:M,
      [forall i, 0 <= x.1.2 0 i] & [forall i : 'I_n, forall j : 'I_n, (i <= j)%N ==> (x.1.2 0 j <= x.1.2 0 i)]].
have E A : exists x, P A x.
  have [U [S [Vt [[E1 E2 E3 E4] E5]]]] := svd_sorted A; exists (U, S, Vt); rewrite /P /= -E1 eqxx E2 eqxx E3 eqxx /=.
  by apply/andP; split; [exact/forallP | apply/forallP => i; apply/forallP => j; apply/implyP; exact: E5].
exists (fun A => xchoose (E A)) => A.
case/and5P: (xchooseP (E A)) => /eqP E1 /eqP E2 /eqP E3 /forallP E4 /forallP E5; split; first by split.
by move=> i j; apply/implyP; move/forallP: (E5 i); apply.
Qed.
Lemma svd_function n : exists SVD, forall A : 'M[R]_n, svd_at SVD A.
Proof. by have [SVD H] := svd_function_sorted n; exists SVD => A; have [] := H A. Qed.
Lemma chol_function n : exists CHOL, forall A : 'M[R]_n, posdef A -> is_chol A (CHOL A).
Proof.
have [EIG HE] := eig_function n; have [QR HQ] := qr_function (leqnn n).
pose q A := (QR (diag_mx (\row_i Num.sqrt ((EIG A).2 0 i)) *m (EIG A).1^T)).2.
exists (fun A => (q A)^T *m diag_mx (sgn_row (q A))) => A HA.
by apply: chol_of HA (HE A HA.1).1 (HQ _).
Qed.
Lemma sylvester_function n : exists SYL, forall A B C : 'M[R]_n,
  (exists X, A *m X + X *m B = C) -> sylvester_at SYL A B C.
Proof.
pose M (A B : 'M[R]_n) := lin_mx [linear of mulmx A] + lin_mx [linear of mulmxr B].
have HM A B X : mxvec X *m M A B = mxvec (A *m X + X *m B).
  by rewrite mulmxDr !mul_vec_lin /= raddfD.
exists (fun A B C => vec_mx (mxvec C *m pinvmx (M A B))) => A B C [X E]; rewrite /sylvester_at.
apply: (can_inj mxvecK); rewrite -HM vec_mxK mulmxKpV // -E -HM; exact: submxMl.
Qed.
End exists_.
