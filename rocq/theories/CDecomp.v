(** The decompositions that LAPACK computes for complex matrices exist for every matrix: the
    assumptions of the theorems about routines that return them can be met. *)
From mathcomp Require Import all_ssreflect perm all_algebra.
From mathcomp.real_closed Require Import complex.
Require Import Ring Field.
From Verif Require Import MxTac StiefelModel CStieSpec CStieModel CMx CStieProofs CStieRetr CStiePolar CFrSpec.
Import Order.TTheory GRing.Theory Num.Theory.
Set Implicit Arguments.
Unset Strict Implicit.
Local Open Scope ring_scope.
Local Open Scope complex_scope.

Section exists_.
Variable R : rcfType.
Local Notation C := R[i].
Local Notation re := (@complex.Re R).
Local Notation im := (@complex.Im R).
Add Field cdec_field : (rcf_field R).
Add Ring cdec_ring : (kring R).
Record is_ceig n (S V : 'M[C]_n) (lam : 'rV[R]_n) : Prop :=
  { ceig_product : S = V *m rdiag lam *m adj V; ceig_unitary : unitary V }.

(** ** QR *)
Lemma kernel_col a b (A : 'M[C]_(a, b)) : (a < b)%N -> exists u : 'cV[C]_b, u != 0 /\ A *m u = 0.
Proof.
move=> H; have : kermx (adj A) != 0.
  by rewrite kermx_eq0 /row_free neq_ltn (leq_ltn_trans (rank_leq_col (adj A)) H).
move/rowV0Pn => [u /sub_kermxP Hu Hn]; exists (adj u); split; first by apply/eqP => H0; case/eqP: Hn; rewrite -[u]adjK H0 adj0.
by apply: adj_inj; rewrite adjM adjK Hu adj0.
Qed.
Lemma gram1 n (u : 'cV[C]_n) : adj u *m u = ((cinner u u)%:C)%:M.
Proof.
apply/matrixP => i j; rewrite !ord1 [in RHS]mxE eqxx mulr1n; apply: ceq; first by rewrite /cinner /mxtrace big_ord1.
have E : adj (adj u *m u) = adj u *m u by rewrite adjM adjK.
have := congr1 (fun M : 'M_1 => im (M 0 0)) E; rewrite /adj mxE imJ -/(adj u) => /eqP; rewrite eq_sym -addr_eq0 -mulr2n mulrn_eq0 => /eqP ->; by [].
Qed.
Lemma norm_col n (u : 'cV[C]_n) : u != 0 -> exists c : R, c != 0 /\ unitary (c%:C *: u).
Proof.
move=> Hu; have Hp : 0 < cinner u u.
  rewrite lt_def cinner_ge0 andbT; apply/eqP => /cinner_eq0 E; by rewrite E eqxx in Hu.
exists (Num.sqrt (cinner u u))^-1; split; first by rewrite invr_eq0 sqrtr_eq0 -ltNge.
rewrite /unitary adjR kmulZl kmulZr gram1 scalerA scale_scalar_mx -!rcM.
by rewrite -invfM -expr2 sqr_sqrtr ?mulVf ?ltW //; exact: lt0r_neq0.
Qed.
Lemma orth_extend m n (Q : 'M[C]_(m, n)) (a : 'cV[C]_m) : unitary Q -> (n < m)%N ->
  exists q (c : R), unitary (row_mx Q q) /\ a = Q *m ((adj Q) *m a) + c%:C *: q.
Proof.
move=> HQ Hnm; set b := a - Q *m ((adj Q) *m a).
have Qb : (adj Q) *m b = 0 by rewrite /b mulmxBr mulmxA HQ mul1mx subrr.
have [q [c [Hq HQq E]]] : exists q (c : R), [/\ unitary q, (adj Q) *m q = 0 & b = c%:C *: q].
  case: (altP (b =P 0)) => [E|Hb].
    have [u [Hu HQu]] := kernel_col (adj Q) Hnm; have [c [_ Hc]] := norm_col Hu.
    by exists (c%:C *: u), 0; split=> //; rewrite ?scale0r // kmulZr HQu scaler0.
  have [c [Hc Ho]] := norm_col Hb; exists (c%:C *: b), c^-1; split=> //.
    by rewrite kmulZr Qb scaler0.
  by rewrite scalerA -rcM mulVf // scale1r.
exists q, c; split; last by rewrite -E /b addrC subrK.
rewrite /unitary adj_row_mx mul_col_row HQ HQq Hq.
have -> : (adj q) *m Q = 0 by have := congr1 (@adj R _ _) HQq; rewrite adjM adjK adj0.
by rewrite -scalar_mx_block.
Qed.
Lemma qr_exists m n (A : 'M[C]_(m, n)) : (n <= m)%N -> exists Q r, is_cqr A Q r.
Proof.
elim: n A => [|n IH] A Hn.
  exists A, 0; split; [by apply/matrixP => ? [] | by apply/matrixP => [[]] | by move=> [] | by move=> []].
have [B [a EA]] : exists (B : 'M_(m, n)) (a : 'cV_m), A = castmx (erefl, addn1 n) (row_mx B a).
  exists (lsubmx (castmx (erefl, esym (addn1 n)) A)), (rsubmx (castmx (erefl, esym (addn1 n)) A)).
  by rewrite hsubmxK castmx_comp castmx_id.
have [Q [r [EB HQ Hr Hre]]] := IH B (ltnW Hn).
have [q [c [HQq Ea]]] := orth_extend a HQ Hn.
exists (castmx (erefl, addn1 n) (row_mx Q q)), (castmx (addn1 n, addn1 n) (block_mx r ((adj Q) *m a) 0 (c%:C%:M))); split.
- rewrite EA; case: _ / (addn1 n) => /=; rewrite !castmx_id mul_row_block mulmx0 addr0 -EB; congr row_mx.
  by rewrite {1}Ea mul_mx_scalar.
- by move: HQq; rewrite /unitary; case: _ / (addn1 n); rewrite !castmx_id.
- move=> i j; rewrite castmxE /= => Hij.
  have H (i' j' : 'I_(n + 1)) : (j' < i')%N -> block_mx r ((adj Q) *m a) 0 (c%:C%:M) i' j' = 0.
    case: (split_ordP i') => a' ->; case: (split_ordP j') => b' ->; rewrite ?block_mxEul ?block_mxEur ?block_mxEdl ?block_mxEdr => H.
    - exact: Hr.
    - by move: H => /=; rewrite ltnNge (ltnW (ltn_addr _ (ltn_ord a'))).
    - by rewrite mxE.
    by rewrite !ord1 in H; rewrite ltnn in H.
  exact: H.
move=> i; rewrite castmxE /=; move: (cast_ord _ i) => i'.
case: (split_ordP i') => a' ->; rewrite ?block_mxEul ?block_mxEdr; first exact: Hre.
by rewrite !ord1 mxE eqxx mulr1n.
Qed.

(** ** Eigenvalues *)
Lemma ceigen n (S : 'M[C]_n) : (0 < n)%N -> hermitian S -> exists (lam : R) (u : 'cV[C]_n), u != 0 /\ S *m u = lam%:C *: u.
Proof.
move=> Hn HS; have [a /eigenvalueP [v Ev Hv]] := Theorem7' S Hn.
have E : S *m adj v = conjc a *: adj v by rewrite -{1}HS -adjM Ev adjZ.
have Hu : adj v != 0 by apply/eqP => H0; case/eqP: Hv; rewrite -[v]adjK H0 adj0.
move: (adj v) Hu E => u Hu; move: (conjc a) => c E; exists (re c), u; split=> //.
rewrite E; congr (_ *: _); apply: ceq => //=.
have : adj u *m (S *m u) = adj (S *m u) *m u by rewrite adjM HS mulmxA.
rewrite E adjZ kmulZl kmulZr gram1 !scale_scalar_mx => /(congr1 (fun M : 'M_1 => im (M 0 0))).
rewrite !mxE eqxx !mulr1n !imM /= !mulr0 !add0r imJ mulNr.
have Pu : cinner u u != 0 by apply: contra Hu => /eqP /cinner_eq0 ->.
move/eqP; rewrite -addr_eq0 -mulr2n mulrn_eq0 /= mulf_eq0 (negbTE Pu) orbF => /eqP //.
Qed.
Lemma orth_complete n (u : 'cV[C]_(1 + n)) : unitary u -> exists W : 'M[C]_(1 + n, n), unitary (row_mx u W).
Proof.
move=> Hu; have [Q [r HQ]] := qr_exists (row_mx u (0 : 'M[C]_(1 + n, n))) (leqnn _).
have [E Ho Hr _] := HQ; exists (rsubmx Q).
have E1 : u = r 0 0 *: lsubmx Q.
  have := congr1 lsubmx E; rewrite row_mxKl => ->.
  have Er : lsubmx r = col_mx (r 0 0)%:M 0.
    apply/matrixP => i j; rewrite !mxE !ord1; case: splitP => l Hl; rewrite mxE.
      by rewrite !ord1 eqxx mulr1n; congr (r _ _); apply: val_inj; rewrite /= ?Hl ?ord1.
    by apply: Hr; rewrite Hl.
  have -> : lsubmx (Q *m r) = Q *m lsubmx r by rewrite -{1}(hsubmxK r) mul_mx_row row_mxKl.
  by rewrite Er -{1}(hsubmxK Q) mul_row_col mulmx0 addr0 mul_mx_scalar.
have := Ho; rewrite /unitary -{1 2}(hsubmxK Q) adj_row_mx mul_col_row (@scalar_mx_block _ 1 n 1) => /eq_block_mx [H1 H2 H3 H4].
rewrite adj_row_mx mul_col_row Hu H4 {1 2}E1 adjZ kmulZl kmulZr H2 H3 !scaler0.
by [].
Qed.
Lemma adj_block m1 m2 n1 n2 (A : 'M[C]_(m1, n1)) (B : 'M[C]_(m1, n2)) (D : 'M[C]_(m2, n1)) (E : 'M[C]_(m2, n2)) :
  adj (block_mx A B D E) = block_mx (adj A) (adj D) (adj B) (adj E).
Proof. by rewrite /block_mx adj_col_mx !adj_row_mx -block_mxEh. Qed.
Lemma rdiag_row m n (a : 'rV[R]_m) (b : 'rV[R]_n) : rdiag (row_mx a b) = block_mx (rdiag a) 0 0 (rdiag b).
Proof.
rewrite /rdiag -diag_mx_row; congr diag_mx; apply/matrixP => i j; rewrite !mxE; case: fintype.split => l; by rewrite mxE.
Qed.
Lemma spectral_step n (S : 'M[C]_(1 + n)) :
  (forall T : 'M[C]_n, hermitian T -> exists V lam, is_ceig T V lam) -> hermitian S -> exists V lam, is_ceig S V lam.
Proof.
move=> IH HS; have [lam [u0 [Hu0 Eu0]]] := ceigen (ltn0Sn n) HS.
have [c [Hc Hu]] := norm_col Hu0; set u := c%:C *: u0 in Hu.
have Eu : S *m u = lam%:C *: u by rewrite /u kmulZr Eu0 !scalerA mulrC.
move: u Hu Eu => u Hu Eu {Hu0 Eu0 Hc}.
have [W HW] := orth_complete Hu.
have := HW; rewrite /unitary adj_row_mx mul_col_row (@scalar_mx_block _ 1 n 1) => /eq_block_mx [H1 H2 H3 H4].
have HT : hermitian ((adj W) *m S *m W) by rewrite /hermitian !adjM adjK HS mulmxA.
have [V [l [EV HV]]] := IH _ HT.
have HO : row_mx u W *m (adj (row_mx u W)) = 1%:M by apply: mulmx1C.
have ES : (adj (row_mx u W)) *m S *m row_mx u W = block_mx (lam%:C%:M) 0 0 ((adj W) *m S *m W).
  rewrite adj_row_mx mul_col_mx mul_col_row.
  have Eu' : (adj u) *m S = lam%:C *: (adj u) by have := congr1 (@adj R _ _) Eu; rewrite adjM HS adjR.
  have E1 : (adj W) *m S *m u = 0 by rewrite -mulmxA Eu kmulZr H3 scaler0.
  by rewrite Eu' E1 !kmulZl H2 scaler0 H1 scalemx1.
exists (row_mx u W *m block_mx 1%:M 0 0 V), (row_mx lam%:M l); split.
  have -> : S = row_mx u W *m ((adj (row_mx u W)) *m S *m row_mx u W) *m (adj (row_mx u W)).
    by rewrite !mulmxA HO mul1mx -mulmxA HO mulmx1.
  rewrite ES adjM !mulmxA; congr (_ *m _); rewrite -!mulmxA; congr (_ *m _).
  rewrite rdiag_row adj_block !adj0 adj1 !mulmx_block !mulmx0 !mul0mx !addr0 !add0r mulmx1 mul1mx !mulmxA -EV.
  by congr block_mx; rewrite ?mulmx0 //; apply/matrixP => i j; rewrite !ord1 !mxE eqxx.
rewrite /unitary adjM !mulmxA -[_ *m (adj (row_mx u W)) *m row_mx u W]mulmxA HW mulmx1.
rewrite adj_block !adj0 adj1 mulmx_block !mulmx0 !mul0mx !addr0 !add0r mulmx1 HV.
by rewrite (@scalar_mx_block _ 1 n 1).
Qed.
Lemma spectral n (S : 'M[C]_n) : hermitian S -> exists V lam, is_ceig S V lam.
Proof.
elim: n S => [|n IH] S HS; last exact: (@spectral_step n).
by exists 0, 0; split; apply/matrixP => [[]].
Qed.
Lemma eig_entry n (V : 'M[C]_n) lam i j : (V *m rdiag lam *m (adj V)) i j = \sum_k V i k * (lam 0 k)%:C * conjc (V j k).
Proof. by rewrite mxE; apply: eq_bigr => k _; rewrite mul_mx_diag !mxE. Qed.
Lemma spectral_asc n (S : 'M[C]_n) : hermitian S -> exists V lam, is_ceig S V lam /\
  forall i j : 'I_n, (i <= j)%N -> lam 0 i <= lam 0 j.
Proof.
move=> /spectral [V [lam [ES HV]]]; pose t := [tuple lam 0 i | i < n].
have : perm_eq (sort_tuple <=%O t) t by rewrite perm_sort.
move/tuple_permP => [s Es].
have Hs (i : 'I_n) : lam 0 (s i) = tnth (sort_tuple <=%O t) i.
  have := congr1 (fun q => nth 0 q i) Es; rewrite -(tnth_nth 0 (sort_tuple _ _) i) => ->.
  by rewrite (nth_map i) ?size_enum_ord // nth_ord_enum tnth_mktuple.
exists (\matrix_(i, j) V i (s j)), (\row_j lam 0 (s j)); split; last first.
  move=> i j Hij; rewrite !mxE !Hs !(tnth_nth 0).
  apply: (sorted_leq_nth le_trans lexx) => //; rewrite ?inE ?size_tuple //.
  by apply: (sort_sorted (@le_total _ R)).
split.
  rewrite ES; apply/matrixP => i j; rewrite !eig_entry (reindex_inj (@perm_inj _ s)) /=.
  by apply: eq_bigr => k _; rewrite !mxE.
apply/matrixP => i j; rewrite mxE.
have := congr1 (fun M : 'M_n => M (s i) (s j)) HV; rewrite [in X in X -> _]mxE [in X in X -> _]mxE (inj_eq (@perm_inj _ s)) => E.
rewrite [RHS]mxE -E; apply: eq_bigr => k _; by rewrite !mxE.
Qed.

(** ** Singular values *)
Lemma diag_gram n (r : 'M[C]_n) (d : 'rV[R]_n) : cupper r -> (adj r) *m r = rdiag d ->
  (forall i j : 'I_n, (i <= j)%N -> d 0 j <= d 0 i) -> r = diag_mx (\row_i r i i).
Proof.
move=> Hu E Hd; have En (i j : 'I_n) : \sum_k conjc (r k i) * r k j = (d 0 i)%:C *+ (i == j).
  have := congr1 (fun M : 'M_n => M i j) E; rewrite !mxE => <-.
  by apply: eq_bigr => k _; rewrite mxE.
have Ed (j : 'I_n) : \sum_k (re (r k j) ^+ 2 + im (r k j) ^+ 2) = d 0 j.
  have := congr1 re (En j j); rewrite eqxx mulr1n re_sum /= => <-.
  by apply: eq_bigr => k _; rewrite mulcJ.
have Hz (j : 'I_n) : d 0 j = 0 -> forall k, r k j = 0.
  move=> H0 k; have := Ed j; rewrite H0 => /eqP; rewrite psumr_eq0.
    by move/allP/(_ k (mem_index_enum _)); rewrite /= => /eqP H; apply: sq2_eq0; rewrite -!expr2.
  by move=> l _; rewrite addr_ge0 ?sqr_ge0.
have Hge (j : 'I_n) : 0 <= d 0 j.
  by rewrite -Ed; apply: sumr_ge0 => l _; rewrite addr_ge0 ?sqr_ge0.
have key m : forall i j : 'I_n, (i < m)%N -> (i < j)%N -> r i j = 0.
  elim: m => [//|m IH] i j Hi Hij.
  case: (altP (d 0 i =P 0)) => [H0|Hn].
    by apply: Hz; apply/eqP; rewrite eq_le Hge andbT -H0 Hd // ltnW.
  have Es (l : 'I_n) : \sum_k conjc (r k i) * r k l = conjc (r i i) * r i l.
    rewrite (bigD1 i) //= big1 ?addr0 // => k Hk; case: (ltngtP k i) => Hki.
    - by rewrite (IH k i) ?conjc0 ?mul0r // (leq_trans Hki).
    - by rewrite (Hu k i) ?conjc0 ?mul0r.
    by move/val_inj: Hki Hk => ->; rewrite eqxx.
  have := En i j; rewrite Es; have -> : (i == j) = false by apply/eqP => E'; rewrite E' ltnn in Hij.
  rewrite mulr0n => /eqP; rewrite mulf_eq0 => /orP [/eqP H0|/eqP //].
  by have := congr1 re (En i i); rewrite Es eqxx mulr1n H0 mul0r /= => /esym/eqP; rewrite (negbTE Hn).
apply/matrixP => i j; rewrite !mxE; case: (ltngtP i j) => Hij.
- have -> : (i == j) = false by apply/eqP => E'; rewrite E' ltnn in Hij.
  exact: (key i.+1).
- have -> : (i == j) = false by apply/eqP => E'; rewrite E' ltnn in Hij.
  exact: Hu.
by move/val_inj: Hij => ->; rewrite eqxx.
Qed.
Lemma rdiagN n (d : 'rV[R]_n) : rdiag (- d) = - rdiag d.
Proof. by apply/matrixP => i j; rewrite !mxE rcN mulNrn. Qed.
Lemma svd_sorted n (A : 'M[C]_n) : exists U S Vt, is_csvd A U S Vt /\
  forall i j : 'I_n, (i <= j)%N -> S 0 j <= S 0 i.
Proof.
have HS : hermitian (- ((adj A) *m A)) by rewrite /hermitian adjN adjM adjK.
have [V [lam [[EV HV] Ha]]] := spectral_asc HS.
have [Q [r [Eq HQ Hr Hre]]] := qr_exists (A *m V) (leqnn n).
have HV' : V *m (adj V) = 1%:M by apply: mulmx1C.
have Er : (adj r) *m r = rdiag (- lam).
  have -> : (adj r) *m r = (adj (A *m V)) *m (A *m V).
    by rewrite Eq adjM !mulmxA -[(adj r) *m (adj Q) *m Q]mulmxA HQ mulmx1.
  have -> : (adj (A *m V)) *m (A *m V) = - ((adj V) *m - ((adj A) *m A) *m V) by rewrite mulmxN mulNmx opprK adjM !mulmxA.
  by rewrite EV !mulmxA HV mul1mx -mulmxA HV mulmx1 rdiagN.
have Hd := diag_gram Hr Er (fun i j H => ltac:(by rewrite !mxE ler_opp2 Ha)).
exists (Q *m diag_mx (csgn_row r)), (\row_i `|re (r i i)|), (adj V); split; last first.
  have E2 (i : 'I_n) : re (r i i) ^+ 2 = - lam 0 i.
    have := congr1 (fun M : 'M_n => M i i) Er; rewrite [LHS]mxE (bigD1 i) //= big1 => [|k Hk]; last first.
      by rewrite Hd !mxE (negbTE Hk) !mulr0n mulr0.
    rewrite addr0 mxE mulcJ Hre expr0n /= addr0 !mxE eqxx mulr1n => /(congr1 re) /= ->; by [].
  move=> i j Hij; rewrite !mxE -(ler_pexpn2r (isT : (0 < 2)%N)) ?nnegrE ?normr_ge0 //.
  by rewrite !real_normK ?num_real // !E2 ler_opp2 Ha.
split.
- rewrite -[A]mulmx1 -HV' mulmxA Eq; congr (_ *m _); rewrite -mulmxA; congr (_ *m _).
  rewrite {1}Hd mulmx_diag; congr diag_mx; apply/matrixP => z i; rewrite !mxE.
  rewrite {1}(real_is (Hre i)); case: ltP => H; first by rewrite ltr0_norm // mulN1r rcN opprK.
  by rewrite ger0_norm // mul1r.
- rewrite /unitary adjM csgn_adj !mulmxA -[diag_mx _ *m (adj Q) *m Q]mulmxA HQ mulmx1; exact: csgn_sq.
- by rewrite adjK.
by move=> i; rewrite mxE normr_ge0.
Qed.
Lemma svd_exists n (A : 'M[C]_n) : exists U S Vt, is_csvd A U S Vt.
Proof. by have [U [S [Vt [H _]]]] := svd_sorted A; exists U, S, Vt. Qed.
Lemma hhr_exists p k (A : 'M[C]_(p + k, p)) : exists Q r, is_chhr A Q r.
Proof.
have [Q [r [E Ho Hr Hre]]] := qr_exists (row_mx A (0 : 'M[C]_(p + k, k))) (leqnn _).
exists Q, (ulsubmx r); split=> //.
  have -> : A = Q *m lsubmx r.
    have := congr1 lsubmx E; rewrite row_mxKl => ->.
    by rewrite -{1}(hsubmxK r) mul_mx_row row_mxKl.
  rewrite mulmxA Ho mul1mx -[lsubmx r]vsubmxK; congr col_mx.
    by apply/matrixP => i j; rewrite !mxE.
  apply/matrixP => i j; rewrite !mxE; apply: Hr => /=; by rewrite ltn_addr.
- by move=> i j Hij; rewrite !mxE; apply: Hr.
by move=> i; rewrite !mxE; apply: Hre.
Qed.
Lemma adj_delta m n (i : 'I_m) (j : 'I_n) : adj (delta_mx i j : 'M[C]_(m, n)) = delta_mx j i.
Proof. by apply/matrixP => k l; rewrite !mxE andbC; case: (_ && _); rewrite ?conjc1 ?conjc0. Qed.
Lemma posdef_eig n (A V : 'M[C]_n) lam : cposdef A -> is_ceig A V lam -> forall i, 0 < lam 0 i.
Proof.
move=> [_ HA] [E HV] i; have Hv : col i V != 0.
  apply/eqP => H0; have := congr1 (fun M : 'M_n => M i i) HV; rewrite !mxE eqxx => /eqP.
  rewrite big1 ?[0 == _]eq_sym ?oner_eq0 // => k _; rewrite mxE mulrC.
  by have := congr1 (fun M : 'cV_n => M k 0) H0; rewrite !mxE => ->; rewrite mul0r.
have := HA _ Hv.
have -> : (adj (col i V)) *m A *m col i V = row i ((adj V) *m A *m V) *m delta_mx i 0.
  by rewrite colE adjM adj_delta -!rowE !row_mul !mulmxA.
have -> : (adj V) *m A *m V = rdiag lam by rewrite E !mulmxA HV mul1mx -mulmxA HV mulmx1.
by rewrite -colE !mxE eqxx mulr1n.
Qed.
(** ** Cholesky *)
Lemma chol_of n (A V Q r : 'M[C]_n) (lam : 'rV[R]_n) : cposdef A -> is_ceig A V lam ->
  is_cqr (rdiag (\row_i Num.sqrt (lam 0 i)) *m (adj V)) Q r -> is_cchol A ((adj r) *m diag_mx (csgn_row r)).
Proof.
move=> HA He [Eq HQ Hr Hre]; have Hl := posdef_eig HA He; have [E HV] := He.
have EA : A = (adj r) *m r.
  have -> : (adj r) *m r = (adj (Q *m r)) *m (Q *m r) by rewrite adjM !mulmxA -[(adj r) *m (adj Q) *m Q]mulmxA HQ mulmx1.
  rewrite -Eq adjM adjK adj_rdiag !mulmxA -[V *m _ *m rdiag _]mulmxA mulmx_diag E; congr (_ *m diag_mx _ *m _).
  by apply/matrixP => i j; rewrite !mxE -rcM -expr2 sqr_sqrtr ?ord1 //; exact: ltW.
have Hn (i : 'I_n) : r i i != 0.
  apply: cupper_unit_diag => //; have := cposdef_unit HA; rewrite EA unitmx_mul => /andP [] //.
split.
- rewrite adjM adjK csgn_adj mulmxA -[_ *m diag_mx _ *m diag_mx _]mulmxA csgn_sq mulmx1 //.
- by move=> i j Hij; rewrite mul_mx_diag !mxE (Hr j i Hij) conjc0 mul0r.
move=> i; rewrite mul_mx_diag !mxE; have := Hn i; rewrite (real_is (Hre i)) cjR.
move: (re _) => c Hc; have Hc' : c != 0 by apply: contra Hc => /eqP ->.
case: (ltP (re c%:C) 0) => H; rewrite ?mulr1 ?mulrN1; first by rewrite imN reN imC reC oppr0 oppr_gt0; split.
by split=> //=; rewrite lt_def Hc'.
Qed.
(** ** Functions that return them *)
Definition upperb n (r : 'M[C]_n) := [forall i : 'I_n, forall j : 'I_n, (j < i)%N ==> (r i j == 0)].
Lemma upperP n (r : 'M[C]_n) : reflect (cupper r) (upperb r).
Proof.
apply: (iffP forallP) => [H i j Hij|H i]; first by move/forallP/(_ j)/implyP/(_ Hij)/eqP: (H i).
by apply/forallP => j; apply/implyP => Hij; apply/eqP/H.
Qed.
Lemma qr_function m n : (n <= m)%N -> exists QR, forall A : 'M[C]_(m, n), cqr_at QR A.
Proof.
move=> H; pose P (A : 'M[C]_(m, n)) (x : 'M[C]_(m, n) * 'M[C]_n) :=
  [&& A == x.1 *m x.2, (adj x.1) *m x.1 == 1%:M, upperb x.2 & [forall i, im (x.2 i i) == 0]].
have E A : exists x, P A x.
  have [Q [r [E1 E2 E3 E4]]] := qr_exists A H; exists (Q, r); rewrite /P /= -E1 eqxx E2 eqxx /=; apply/andP; split; first exact/upperP.
  by apply/forallP => i; apply/eqP; apply: E4.
exists (fun A => xchoose (E A)) => A; case/and4P: (xchooseP (E A)) => /eqP E1 /eqP E2 /upperP E3 /forallP E4; split=> // i; exact/eqP.
Qed.
Lemma eig_function n : exists EIG, forall S : 'M[C]_n, hermitian S -> is_ceig S (EIG S).1 (EIG S).2 /\
  forall i j : 'I_n, (i <= j)%N -> (EIG S).2 0 i <= (EIG S).2 0 j.
Proof.
pose P (S : 'M[C]_n) (x : 'M[C]_n * 'rV[R]_n) := (S == (adj S)) ==>
  [&& S == x.1 *m rdiag x.2 *m (adj x.1), (adj x.1) *m x.1 == 1%:M &
      [forall i : 'I_n, forall j : 'I_n, (i <= j)%N ==> (x.2 0 i <= x.2 0 j)]].
have E S : exists x, P S x.
  case: (altP (S =P (adj S))) => [HS|/negbTE HS]; last by exists (0, 0); rewrite /P HS.
  have [V [lam [[E1 E2] E3]]] := spectral_asc (esym HS); exists (V, lam); rewrite /P /= -E1 eqxx E2 eqxx /=.
  apply/implyP => _; apply/forallP => i; apply/forallP => j; apply/implyP; exact: E3.
exists (fun S => xchoose (E S)) => S HS; have := xchooseP (E S); rewrite {1}/P HS eqxx /=.
case/and3P => /eqP E1 /eqP E2 /forallP E3; split; first by split.
by move=> i j; apply/implyP; move/forallP: (E3 i); apply.
Qed.
Lemma svd_function_sorted n : exists SVD, forall A : 'M[C]_n, csvd_at SVD A /\
  forall i j : 'I_n, (i <= j)%N -> (SVD A).1.2 0 j <= (SVD A).1.2 0 i.
Proof.
pose P (A : 'M[C]_n) (x : 'M[C]_n * 'rV[R]_n * 'M[C]_n) :=
  [&& A == x.1.1 *m rdiag x.1.2 *m x.2, (adj x.1.1) *m x.1.1 == 1%:M, (adj (adj x.2)) *m (adj x.2) == 1%:M,
      [forall i, 0 <= x.1.2 0 i] & [forall i : 'I_n, forall j : 'I_n, (i <= j)%N ==> (x.1.2 0 j <= x.1.2 0 i)]].
have E A : exists x, P A x.
  have [U [S [Vt [[E1 E2 E3 E4] E5]]]] := svd_sorted A; exists (U, S, Vt); rewrite /P /= -E1 eqxx E2 eqxx E3 eqxx /=.
  by apply/andP; split; [exact/forallP | apply/forallP => i; apply/forallP => j; apply/implyP; exact: E5].
exists (fun A => xchoose (E A)) => A.
case/and5P: (xchooseP (E A)) => /eqP E1 /eqP E2 /eqP E3 /forallP E4 /forallP E5; split; first by split.
by move=> i j; apply/implyP; move/forallP: (E5 i); apply.
Qed.
Lemma svd_function n : exists SVD, forall A : 'M[C]_n, csvd_at SVD A.
Proof. by have [SVD H] := svd_function_sorted n; exists SVD => A; have [] := H A. Qed.
Lemma chol_function n : exists CHOL, forall A : 'M[C]_n, cposdef A -> is_cchol A (CHOL A).
Proof.
have [EIG HE] := eig_function n; have [QR HQ] := qr_function (leqnn n).
pose q A := (QR (rdiag (\row_i Num.sqrt ((EIG A).2 0 i)) *m (adj ((EIG A).1)))).2.
exists (fun A => (adj (q A)) *m diag_mx (csgn_row (q A))) => A HA.
by apply: chol_of HA (HE A HA.1).1 (HQ _).
Qed.
End exists_.
