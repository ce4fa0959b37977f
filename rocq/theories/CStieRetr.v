(** Proofs about the QR retraction of the complex Stiefel manifold and its derivative. *)
From mathcomp Require Import all_ssreflect all_algebra.
From mathcomp.real_closed Require Import complex.
Require Import Ring Field.
From Verif Require Import MxTac StiefelModel CStieSpec CStieModel CMx CStieProofs.
Import Order.TTheory GRing.Theory Num.Theory.
Set Implicit Arguments.
Unset Strict Implicit.
Local Open Scope ring_scope.
Local Open Scope complex_scope.

Section linear.
Variable R : rcfType.
Local Notation C := R[i].
Local Notation re := (@complex.Re R).
Local Notation im := (@complex.Im R).
Add Field clin_field : (rcf_field R).
Add Ring clin_ring : (kring R).

Lemma cunit_rows n (A : 'M[C]_n) : (forall u : 'rV[C]_n, u *m A = 0 -> u = 0) -> A \in unitmx.
Proof.
move=> H; rewrite -row_free_unit -kermx_eq0; apply/eqP/row_matrixP => i.
by rewrite row0; apply: H; rewrite -row_mul mulmx_ker row0.
Qed.
Lemma cunit_cols n (A : 'M[C]_n) : (forall u : 'cV[C]_n, A *m u = 0 -> u = 0) -> A \in unitmx.
Proof.
move=> H; rewrite -unitmx_tr; apply: cunit_rows => u Hu.
by apply: trmx_inj; rewrite trmx0; apply: H; rewrite -[A]trmxK -trmx_mul Hu trmx0.
Qed.
Lemma cgram_unit m n (r : 'M[C]_n) (eta : 'M[C]_(m, n)) :
  adj r *m r = 1%:M + adj eta *m eta -> r \in unitmx.
Proof.
move=> H; apply: cunit_cols => u Hu; apply: cinner_eq0.
have : cinner (r *m u) (r *m u) = 0 by rewrite Hu cinner0l.
rewrite cinner_mull mulmxA H mulmxDl mul1mx cinnerDr -mulmxA -cinner_mull => /eqP.
by rewrite paddr_eq0 ?cinner_ge0 // => /andP [/eqP -> _].
Qed.

Section upper.
Variable n : nat.
Implicit Types r s : 'M[C]_n.
Lemma cupper_mul r s : cupper r -> cupper s -> cupper (r *m s).
Proof.
move=> Hr Hs i j Hij; rewrite mxE; apply: big1 => l _.
by case: (ltnP l i) => H; [rewrite Hr ?mul0r | rewrite Hs ?mulr0 //; apply: leq_trans H].
Qed.
Lemma cupper_diag_mul r s i : cupper r -> cupper s -> (r *m s) i i = r i i * s i i.
Proof.
move=> Hr Hs; rewrite mxE (bigD1 i) //= big1 ?addr0 // => l Hl.
case: (ltnP l i) => H; first by rewrite Hr ?mul0r.
by rewrite Hs ?mulr0 // ltn_neqAle eq_sym Hl.
Qed.
Lemma real_mul r s : cupper r -> cupper s -> real_diag r -> real_diag s -> real_diag (r *m s).
Proof. by move=> Ur Us Hr Hs i; rewrite cupper_diag_mul // imM Hr Hs mulr0 mul0r addr0. Qed.
Lemma cupperN r : cupper r -> cupper (- r).
Proof. by move=> H i j Hij; rewrite mxE H ?oppr0. Qed.
Lemma real_diagN r : real_diag r -> real_diag (- r).
Proof. by move=> H i; rewrite mxE imN H oppr0. Qed.
(** A unitary upper triangular matrix with real diagonal: entries 1 and -1. *)
Lemma cupper_unitary r : cupper r -> real_diag r -> unitary r ->
  forall i j, r i i ^+ 2 = 1 /\ (i != j -> r i j = 0).
Proof.
move=> Hu Hd Ho; suff H : forall m (i : 'I_n), (i < m)%N -> r i i ^+ 2 = 1 /\ (forall j, i != j -> r i j = 0).
  by move=> i j; have [H1 H2] := H i.+1 i (leqnn _); split=> //; apply: H2.
elim=> [//|m IH] i Hi.
have E (j : 'I_n) : (i <= j)%N -> r i i * r i j = (i == j)%:R.
  move=> Hij; have := congr1 (fun A : 'M_n => A i j) Ho; rewrite !mxE => <-.
  rewrite (bigD1 i) //= mxE big1 ?addr0 => [|l Hl]; first by rewrite (real_is (Hd i)) cjR.
  rewrite mxE; case: (ltnP i l) => Hil; first by rewrite (Hu l i) // conjc0 mul0r.
  have Hlt : (l < i)%N by rewrite ltn_neqAle Hil andbT.
  have [_ H2] := IH l (leq_trans Hlt Hi).
  by rewrite H2 // conjc0 mul0r.
have H1 : r i i ^+ 2 = 1 by rewrite expr2 E // eqxx.
split=> // j Hj; case: (ltnP j i) => Hji; first exact: Hu.
have H2 := E j Hji; rewrite (negbTE Hj) /= in H2; move/eqP: H2; rewrite mulf_eq0.
case/orP => /eqP // H0; move: H1; rewrite H0 expr0n /= => /eqP; by rewrite eq_sym oner_eq0.
Qed.

Definition csgn_row r : 'rV[C]_n := \row_i (if re (r i i) < 0 then -1 else 1).
Lemma csgn_sq r : diag_mx (csgn_row r) *m diag_mx (csgn_row r) = 1%:M.
Proof.
rewrite mulmx_diag; apply/matrixP => i j; rewrite !mxE.
by case: ifP => _; rewrite ?mulrNN mul1r.
Qed.
Lemma csgn_adj r : adj (diag_mx (csgn_row r)) = diag_mx (csgn_row r).
Proof.
apply/matrixP => i j; rewrite !mxE eq_sym; case: eqP => [->|_]; last by rewrite mulr0n conjc0.
by rewrite mulr1n; case: ifP => _; rewrite ?cjN conjc1.
Qed.
Lemma cfix_columnsE m r (Q : 'M[C]_(m, n)) : cfix_columns r Q = Q *m diag_mx (csgn_row r).
Proof. by apply/matrixP => i j; rewrite mul_mx_diag !mxE; case: ifP => _; rewrite ?mulrN1 ?mulr1. Qed.
Lemma cfix_rowsE m r (A : 'M[C]_(n, m)) : cfix_rows r A = diag_mx (csgn_row r) *m A.
Proof. by apply/matrixP => i j; rewrite mul_diag_mx !mxE; case: ifP => _; rewrite ?mulN1r ?mul1r. Qed.
Lemma cupper_unit_diag r : cupper r -> r \in unitmx -> forall i, r i i != 0.
Proof.
move=> Hu; rewrite unitmxE -det_tr det_trig; last first.
  by apply/is_trig_mxP => i j Hij; rewrite mxE Hu.
by rewrite unitfE => /prodf_neq0 H i; have := H i isT; rewrite mxE.
Qed.
Lemma cupper_inv r : cupper r -> r \in unitmx -> cupper (invmx r).
Proof.
move=> Hu Hr.
suff H : forall m (i j : 'I_n), (n - i < m)%N -> (j < i)%N -> invmx r i j = 0.
  by move=> i j; apply: (H (n - i).+1).
elim=> [//|m IH] i j Hm Hij; rewrite ltnS in Hm.
have E := congr1 (fun B : 'M_n => B i j) (mulmxV Hr); rewrite !mxE in E.
rewrite (bigD1 i) //= big1 ?addr0 in E; last first.
  move=> l Hl; case: (ltnP l i) => Hli; first by rewrite Hu ?mul0r.
  have Hlt : (i < l)%N by rewrite ltn_neqAle Hli eq_sym andbT.
  rewrite IH ?mulr0 //; last exact: ltn_trans Hlt.
  by apply: leq_trans Hm; apply: ltn_sub2l => //; apply: ltn_trans (ltn_ord l).
have Hd := cupper_unit_diag Hu Hr i.
have Hij' : (i == j) = false by apply/eqP => E'; move: Hij; rewrite E' ltnn.
by move: E; rewrite Hij' /= => /eqP; rewrite mulf_eq0 (negbTE Hd) /= => /eqP.
Qed.
Lemma cinv_diag r i : cupper r -> r \in unitmx -> r i i * invmx r i i = 1.
Proof.
move=> Hu Hr; have := congr1 (fun B : 'M_n => B i i) (mulmxV Hr).
by rewrite cupper_diag_mul // ?mxE ?eqxx //; apply: cupper_inv.
Qed.
Lemma real_inv r : cupper r -> real_diag r -> r \in unitmx -> real_diag (invmx r).
Proof.
move=> Hu Hd Hr i; have E := cinv_diag i Hu Hr.
have H0 : re (r i i) != 0.
  by apply/eqP => H0; have := cupper_unit_diag Hu Hr i; rewrite (real_is (Hd i)) H0 => /eqP; apply.
have := congr1 im E; rewrite imM Hd mul0r addr0 /= => /eqP.
by rewrite mulf_eq0 (negbTE H0) => /eqP.
Qed.
Lemma cskew_upper0 r : skew_hermitian r -> cupper r -> real_diag r -> r = 0.
Proof.
move=> Hs Hu Hd; apply/matrixP => i j; rewrite mxE.
have E a b : conjc (r b a) = - r a b by have := congr1 (fun B : 'M_n => B a b) Hs; rewrite !mxE.
case: (ltngtP j i) => Hij; first exact: Hu.
  by apply: oppr_inj; rewrite -E Hu // conjc0 oppr0.
move/val_inj: Hij => <-; apply: ceq; last exact: Hd.
have := congr1 re (E j j); rewrite reJ reN => H.
have : re (r j j) *+ 2 = 0 by rewrite mulr2n {1}H addNr.
by move/eqP; rewrite mulrn_eq0 => /eqP.
Qed.
End upper.
End linear.

Section qf.
Variable R : rcfType.
Local Notation C := R[i].
Local Notation re := (@complex.Re R).
Local Notation im := (@complex.Im R).
Add Field cqf_field : (rcf_field R).
Add Ring cqf_ring : (kring R).
Variables p k : nat.
Local Notation ext := 'M[C]_(p + k, p).
Implicit Types x y v w eta xi Q A : ext.
Implicit Types r M : 'M[C]_p.

Lemma cfixed_qr A Q r : is_cqr A Q r ->
  is_cqr A (cfix_columns r Q) (cfix_rows r r) /\ forall i, 0 <= re (cfix_rows r r i i).
Proof.
case=> HA HQ Hr Hd; split.
  split; first by rewrite cfix_columnsE cfix_rowsE mulmxA -[Q *m _ *m _]mulmxA csgn_sq mulmx1.
  - by rewrite /unitary cfix_columnsE adjM csgn_adj mulmxA -[_ *m adj Q *m _]mulmxA HQ mulmx1 csgn_sq.
  - by move=> i j Hij; rewrite mxE (Hr i j) // oppr0 if_same.
  - by move=> i; rewrite mxE; case: ifP => _; rewrite ?imN Hd ?oppr0.
move=> i; rewrite mxE; case: ifP => H; first by rewrite reN oppr_ge0 ltW.
by rewrite leNgt H.
Qed.
Lemma cqr_gram A Q r : is_cqr A Q r -> adj A *m A = adj r *m r.
Proof. by case=> -> HQ _ _; rewrite adjM mulmxA -[_ *m adj Q *m Q]mulmxA HQ mulmx1. Qed.
Lemma ctangent_gram x eta : unitary x -> ctangent x eta -> adj (x + eta) *m (x + eta) = 1%:M + adj eta *m eta.
Proof.
move=> Hx He; rewrite adjD mulmxDl !mulmxDr Hx (ctangent_adj He).
by rewrite addrA addrK.
Qed.
Lemma cqr_unit x eta Q r : unitary x -> ctangent x eta -> is_cqr (x + eta) Q r -> r \in unitmx.
Proof. by move=> Hx He H; apply: (cgram_unit (eta := eta)); rewrite -(cqr_gram H) ctangent_gram. Qed.
Lemma ctangentZ x (t : R) eta : ctangent x eta -> ctangent x (t%:C *: eta).
Proof. by move=> H; rewrite /ctangent /skew_hermitian kmulZr adjR (H : adj _ = _) scalerN. Qed.

Section retraction.
Variable QR : ext -> ext * 'M[C]_p.
Lemma cqfE x eta : cqf_retraction QR x eta = cfix_columns (QR (x + eta)).2 (QR (x + eta)).1.
Proof. by rewrite /cqf_retraction; case: (QR _). Qed.
Lemma cqf_ok x eta : cqr_at QR (x + eta) -> unitary x -> ctangent x eta ->
  exists r, is_cqr (x + eta) (cqf_retraction QR x eta) r /\ forall i, 0 < re (r i i).
Proof.
move=> H Hx He; have [H1 H2] := cfixed_qr H.
exists (cfix_rows (QR (x + eta)).2 (QR (x + eta)).2); rewrite cqfE; split=> // i.
rewrite lt_neqAle H2 eq_sym andbT.
have := cupper_unit_diag (cqr_upper H1) (cqr_unit Hx He H1) i.
by rewrite (real_is (cqr_real H1 i)); apply: contra_neq => ->.
Qed.
Lemma cqf_unitary x eta : cqr_at QR (x + eta) -> unitary (cqf_retraction QR x eta).
Proof. by move=> H; rewrite cqfE; have [[]] := cfixed_qr H. Qed.
Lemma cqf_zero x : cqr_at QR x -> unitary x -> cqf_retraction QR x 0 = x.
Proof.
rewrite /cqr_at => H Hx; rewrite cqfE addr0.
set Q := (QR x).1 in H *; set r := (QR x).2 in H *.
have Ho : unitary r by rewrite /unitary -(cqr_gram H).
have Hd := cupper_unitary (cqr_upper H) (cqr_real H) Ho.
rewrite [RHS](cqr_product H) cfix_columnsE; congr (_ *m _).
apply/matrixP => i j; rewrite !mxE; have [H1 H2] := Hd i j.
case: eqP => [<-|Hij]; last by rewrite mulr0n H2 //; apply/eqP.
rewrite mulr1n; move/eqP: H1; rewrite sqrf_eq1 => /orP [] /eqP ->.
  by rewrite /= ltr10.
by rewrite /= ltrN10.
Qed.
End retraction.

(** Uniqueness of the factorisation with positive diagonal. *)
Lemma cqr_unique A Q1 Q2 r1 r2 : is_cqr A Q1 r1 -> is_cqr A Q2 r2 ->
  (forall i, 0 < re (r1 i i)) -> (forall i, 0 < re (r2 i i)) -> r1 \in unitmx -> r2 \in unitmx -> Q1 = Q2.
Proof.
move=> H1 H2 P1 P2 U1 U2.
pose M := r1 *m invmx r2.
have EM : adj M *m M = 1%:M.
  rewrite /M adjM !mulmxA -[adj (invmx r2) *m adj r1 *m r1]mulmxA -(cqr_gram H1) (cqr_gram H2) mulmxA.
  have [V2 E2] := adj_unit U2; rewrite -E2 mulVmx // mul1mx mulmxV //.
have HM := cupper_unitary (cupper_mul (cqr_upper H1) (cupper_inv (cqr_upper H2) U2))
  (real_mul (cqr_upper H1) (cupper_inv (cqr_upper H2) U2) (cqr_real H1) (real_inv (cqr_upper H2) (cqr_real H2) U2)) EM.
have M1 : M = 1%:M.
  apply/matrixP => i j; rewrite [RHS]mxE; have [E1 E2] := HM i j.
  case: eqP => [<-|Hij]; last by apply: E2; apply/eqP.
  move/eqP: E1; rewrite sqrf_eq1 => /orP [] /eqP //.
  rewrite (cupper_diag_mul i (cqr_upper H1) (cupper_inv (cqr_upper H2) U2)).
  move=> E; have E3 := cinv_diag i (cqr_upper H2) U2.
  have E4 : r1 i i = - r2 i i by rewrite -[LHS]mulr1 -E3 [r2 i i * _]mulrC mulrA E mulN1r.
  by have := P1 i; rewrite E4 reN oppr_gt0 ltNge (ltW (P2 i)).
have Er : r1 = r2 by rewrite -[r1](mulmxKV U2) -/M M1 mul1mx.
by rewrite -[Q1](mulmxK U1) -(cqr_product H1) Er (cqr_product H2) mulmxK.
Qed.

(** The derivative. *)
Lemma cdiff_upper_upper M : cupper (cdiff_upper M).
Proof.
by move=> i j Hij; rewrite mxE; case: eqP => [E|_]; [move: Hij; rewrite E ltnn | rewrite ltnNge (ltnW Hij)].
Qed.
Lemma cdiff_upper_real M : real_diag (cdiff_upper M).
Proof. by move=> i; rewrite mxE eqxx. Qed.
Lemma cdiff_upper_skew M : skew_hermitian (M + cdiff_upper M).
Proof.
apply/matrixP => i j; rewrite !mxE (eq_sym j i).
case: (ltngtP i j) => Hij.
- have -> : (i == j) = false by apply/eqP => E; move: Hij; rewrite E ltnn.
  by apply: ceq; rewrite !(reJ, imJ, reD, imD, reN, imN) /=; rng R.
- have -> : (i == j) = false by apply/eqP => E; move: Hij; rewrite E ltnn.
  by apply: ceq; rewrite !(reJ, imJ, reD, imD, reN, imN) /=; rng R.
by move/val_inj: Hij => ->; rewrite eqxx; apply: ceq; rewrite !(reJ, imJ, reD, imD, reN, imN) /=; rng R.
Qed.
Lemma cfix_solve m r (A : 'M[C]_(m, p)) : r \in unitmx -> cfix_columns r (A *m invmx r) *m cfix_rows r r = A.
Proof.
move=> Hr; rewrite cfix_columnsE cfix_rowsE mulmxA -[_ *m diag_mx _ *m diag_mx _]mulmxA csgn_sq mulmx1.
by rewrite mulmxKV.
Qed.
Lemma cdiff_qf_ok r y xi : r \in unitmx -> cupper r -> real_diag r -> unitary y ->
  ctangent y (cdiff_qf r y xi) /\
  exists s, cupper s /\ real_diag s /\ cdiff_qf r y xi *m cfix_rows r r + y *m s = xi.
Proof.
move=> Hr Hu Hd Hy; rewrite /cdiff_qf /cgemm /cgemm0 !scale1r.
set Z := cfix_columns r (xi *m invmx r); set M := adj y *m Z.
have HU := cdiff_upper_skew M; have HU2 := @cdiff_upper_upper M; have HU3 := @cdiff_upper_real M.
move: (cdiff_upper M) HU HU2 HU3 => U HU HU2 HU3.
split; first by rewrite /ctangent mulmxDr mulmxA Hy mul1mx addrC.
have Uf : cupper (cfix_rows r r) by move=> i j Hij; rewrite mxE (Hu i j) // oppr0 if_same.
have Rf : real_diag (cfix_rows r r) by move=> i; rewrite mxE; case: ifP => _; rewrite ?imN Hd ?oppr0.
exists (- (U *m cfix_rows r r)); split; first by apply/cupperN/cupper_mul.
split; first by apply/real_diagN/real_mul.
by rewrite mulmxDl cfix_solve // mulmxN mulmxA addrC addrA addNr add0r.
Qed.
Lemma cdiff_unique y r xi v1 v2 s1 s2 : unitary y -> cupper r -> real_diag r -> r \in unitmx ->
  ctangent y v1 -> ctangent y v2 -> cupper s1 -> cupper s2 -> real_diag s1 -> real_diag s2 ->
  v1 *m r + y *m s1 = xi -> v2 *m r + y *m s2 = xi -> v1 = v2 /\ s1 = s2.
Proof.
move=> Hy Hu Hd Hr H1 H2 U1 U2 D1 D2 E1 E2.
have E : (v1 - v2) *m r = y *m (s2 - s1).
  rewrite mulmxBl mulmxBr; apply/eqP; rewrite subr_eq addrAC -subr_eq opprK.
  by rewrite E1 -E2 addrC.
have ED : v1 - v2 = y *m (s2 - s1) *m invmx r by rewrite -E mulmxK.
have EW : adj y *m (v1 - v2) = (s2 - s1) *m invmx r by rewrite ED !mulmxA Hy mul1mx.
have Us : cupper (s2 - s1) by move=> i j Hij; rewrite !mxE U1 ?U2 ?subrr.
have Ds : real_diag (s2 - s1) by move=> i; rewrite !mxE imD imN D1 D2 subrr.
have HW : (s2 - s1) *m invmx r = 0.
  apply: cskew_upper0.
  - by rewrite -EW; apply: ctangentB.
  - by apply: cupper_mul => //; apply: cupper_inv.
  - by apply: real_mul => //; [apply: cupper_inv | apply: real_inv].
have HV : v1 - v2 = 0 by rewrite ED -mulmxA HW mulmx0.
split; first by apply/eqP; rewrite -subr_eq0 HV.
have : s2 - s1 = 0 by rewrite -[s2 - s1](mulmxKV Hr) HW mul0mx.
by move/eqP; rewrite subr_eq0 eq_sym => /eqP.
Qed.
End qf.
