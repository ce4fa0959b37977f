(** Proofs about the derivative of the QR retraction and its adjoint. *)
From mathcomp Require Import all_ssreflect all_algebra.
Require Import Ring Field.
From Verif Require Import MxTac StiefelModel StiefelSpec StiefelProofs StiefelRetr.
Import Order.TTheory GRing.Theory Num.Theory.
Set Implicit Arguments.
Unset Strict Implicit.
Local Open Scope ring_scope.

Section diff.
Variable R : rcfType.
Add Field diff_field : (rcf_field R).
Variables p k : nat.
Local Notation ext := 'M[R]_(p + k, p).
Implicit Types x y v w eta xi Q : ext.
Implicit Types r M W : 'M[R]_p.

Lemma diff_upper_upper M : upper (diff_upper M).
Proof.
by move=> i j Hij; rewrite mxE; case: eqP => [E|_]; [move: Hij; rewrite E ltnn | rewrite ltnNge (ltnW Hij)].
Qed.
Lemma diff_upper_skew M : skew (M + diff_upper M).
Proof.
apply/matrixP => i j; rewrite !mxE (eq_sym j i).
case: (ltngtP i j) => Hij.
- have -> : (i == j) = false by apply/eqP => E; move: Hij; rewrite E ltnn.
  by rng R.
- have -> : (i == j) = false by apply/eqP => E; move: Hij; rewrite E ltnn.
  by rng R.
by move/val_inj: Hij => ->; rewrite eqxx; rng R.
Qed.

Lemma fix_unit r : r \in unitmx -> fix_rows r r \in unitmx.
Proof.
move=> Hr; rewrite fix_rowsE unitmx_mul Hr andbT.
by have [] := mulmx1_unit (sgn_sq r).
Qed.
(** The division by the fixed triangular factor. *)
Lemma fix_solve m r (A : 'M[R]_(m, p)) : r \in unitmx -> fix_columns r (A *m invmx r) *m fix_rows r r = A.
Proof.
move=> Hr; rewrite fix_columnsE fix_rowsE mulmxA -[_ *m diag_mx _ *m diag_mx _]mulmxA sgn_sq mulmx1.
by rewrite mulmxKV.
Qed.

(** The two first-order equations of y r = x + eta with y^T y = I and r upper triangular. *)
Lemma diff_qf_ok r y xi : r \in unitmx -> upper r -> orthonormal y ->
  tangent y (diff_qf r y xi) /\
  exists s, upper s /\ diff_qf r y xi *m fix_rows r r + y *m s = xi.
Proof.
move=> Hr Hu Hy; rewrite /diff_qf /gemm /gemm0 !scale1r.
set Z := fix_columns r (xi *m invmx r); set M := y^T *m Z.
have HU := diff_upper_skew M; have HU2 := @diff_upper_upper M; move: (diff_upper M) HU HU2 => U HU HU2.
split; first by rewrite /tangent mulmxDr mulmxA Hy mul1mx addrC.
exists (- (U *m fix_rows r r)); split.
  by apply/upperN/upper_mul => // i j Hij; rewrite mxE (Hu i j) // oppr0 if_same.
rewrite mulmxDl fix_solve //; mxz; rewrite addrAC subrr.
by rewrite add0r.
Qed.

(** They determine the derivative. *)
Lemma skew_upper0 n (A : 'M[R]_n) : skew A -> upper A -> A = 0.
Proof.
move=> Hs Hu; apply/matrixP => i j; rewrite mxE.
have E a b : A b a = - A a b by have := congr1 (fun B : 'M_n => B a b) Hs; rewrite !mxE.
case: (ltngtP j i) => Hij; [exact: Hu | by rewrite E Hu ?oppr0 |].
move/val_inj: Hij => <-; have : A j j *+ 2 = 0 by rewrite mulr2n {1}E addNr.
by move/eqP; rewrite mulrn_eq0 => /eqP.
Qed.
Lemma upper_inv n (r : 'M[R]_n) : upper r -> r \in unitmx -> upper (invmx r).
Proof.
move=> Hu Hr.
suff H : forall m (i j : 'I_n), (n - i < m)%N -> (j < i)%N -> invmx r i j = 0.
  by move=> i j; apply: (H (n - i).+1).
elim=> [//|m IH] i j Hm Hij; rewrite ltnS in Hm.
have E := congr1 (fun B : 'M_n => B i j) (mulmxV Hr); rewrite !mxE in E.
rewrite (bigD1 i) //= big1 ?addr0 in E; last first.
  move=> l Hl; case: (ltnP l i) => Hli; first by rewrite Hu ?mul0r.
  have Hlt : (i < l)%N by rewrite ltn_neqAle Hli eq_sym andbT.
  rewrite IH ?mulr0 //; last exact: ltn_trans Hlt.
  by apply: leq_trans Hm; apply: ltn_sub2l => //; apply: ltn_trans (ltn_ord l).
have Hd := upper_unit_diag Hu Hr i.
have Hij' : (i == j) = false by apply/eqP => E'; move: Hij; rewrite E' ltnn.
by move: E; rewrite Hij' /= => /eqP; rewrite mulf_eq0 (negbTE Hd) /= => /eqP.
Qed.
Lemma diff_unique y r xi v1 v2 s1 s2 : orthonormal y -> upper r -> r \in unitmx ->
  tangent y v1 -> tangent y v2 -> upper s1 -> upper s2 ->
  v1 *m r + y *m s1 = xi -> v2 *m r + y *m s2 = xi -> v1 = v2 /\ s1 = s2.
Proof.
move=> Hy Hu Hr H1 H2 U1 U2 E1 E2.
have E : (v1 - v2) *m r = y *m (s2 - s1).
  rewrite mulmxBl mulmxBr; apply/eqP; rewrite subr_eq addrAC -subr_eq opprK.
  by rewrite E1 -E2 addrC.
have ED : v1 - v2 = y *m (s2 - s1) *m invmx r by rewrite -E mulmxK.
have EW : y^T *m (v1 - v2) = (s2 - s1) *m invmx r by rewrite ED !mulmxA Hy mul1mx.
have HW : (s2 - s1) *m invmx r = 0.
  apply: skew_upper0.
    rewrite -EW /skew mulmxBr trD trN.
    rewrite (H1 : (y^T *m v1)^T = _) (H2 : (y^T *m v2)^T = _).
    by rewrite opprB opprK addrC.
  by apply: upper_mul; [move=> i j Hij; rewrite !mxE U1 ?U2 ?subrr | apply: upper_inv].
have HV : v1 - v2 = 0 by rewrite ED -mulmxA HW mulmx0.
split; first by apply/eqP; rewrite -subr_eq0 HV.
have : s2 - s1 = 0 by rewrite -[s2 - s1](mulmxKV Hr) HW mul0mx.
by move/eqP; rewrite subr_eq0 eq_sym => /eqP.
Qed.

(** The adjoint. *)
Lemma cotangent_core W M : skew W -> inner W (diff_upper M) = inner (negate_upper W) M.
Proof.
move=> HW; rewrite -!dotE /dot.
have E a b : W b a = - W a b by have := congr1 (fun B : 'M_p => B a b) HW; rewrite !mxE.
have D a : W a a = 0.
  have : W a a *+ 2 = 0 by rewrite mulr2n {1}E addNr.
  by move/eqP; rewrite mulrn_eq0 => /eqP.
pose u (i j : 'I_p) := if (i < j)%N then - (W i j * M i j) else 0.
pose l (i j : 'I_p) := if (i < j)%N then - (W i j * M j i) else 0.
pose l' (i j : 'I_p) := if (j < i)%N then W i j * M i j else 0.
have -> : \sum_i \sum_j W i j * diff_upper M i j = \sum_i \sum_j u i j + \sum_i \sum_j l i j.
  rewrite -big_split; apply: eq_bigr => i _; rewrite -big_split; apply: eq_bigr => j _.
  rewrite !mxE /u /l /=; case: eqP => [->|_]; first by rewrite ltnn D mul0r addr0.
  by case: ifP => _; rng R.
have -> : \sum_i \sum_j negate_upper W i j * M i j = \sum_i \sum_j u i j + \sum_i \sum_j l' i j.
  rewrite -big_split; apply: eq_bigr => i _; rewrite -big_split; apply: eq_bigr => j _.
  rewrite !mxE /u /l' /=; case: (ltngtP i j) => [H|H|/val_inj ->]; [by rng R|by rng R|].
  by rewrite D; rng R.
congr (_ + _); rewrite exchange_big /=; apply: eq_bigr => i _; apply: eq_bigr => j _.
by rewrite /l /l'; case: ifP => // _; rewrite E mulNr opprK.
Qed.
Lemma cotangent_adjoint r x y v xi : orthonormal x -> tangent x v -> tangent y xi ->
  inner xi (diff_qf r y v) = inner (cotangent_qf r x y xi) v.
Proof.
move=> Hx Hv Hxi; rewrite /cotangent_qf proj_inner // /diff_qf /gemm /gemm0 !scale1r.
set Z := fix_columns r (v *m invmx r).
rewrite innerDr [inner xi (y *m _)]innerC inner_mull [inner (diff_upper _) _]innerC (cotangent_core _ Hxi).
rewrite -inner_mull -innerDl.
set E := y *m _ + xi.
rewrite fix_columnsE -mulmxA inner_mulr /Z fix_columnsE trM; congr (inner _ _).
by rewrite tr_diag_mx mulmxA trmx_inv trmxK.
Qed.
Lemma gr_cotangent_adjoint r x y v xi : horizontal x v -> horizontal y xi ->
  inner xi (diff_qf r y v) = inner (gr_cotangent r x y xi) v.
Proof.
move=> Hv Hxi; rewrite /gr_cotangent gr_inner // /diff_qf /gemm /gemm0 !scale1r.
have Hs : skew (y^T *m xi) by rewrite /skew Hxi trmx0 oppr0.
set Z := fix_columns r (v *m invmx r).
rewrite innerDr [inner xi (y *m _)]innerC inner_mull [inner (diff_upper _) _]innerC (cotangent_core _ Hs).
rewrite -inner_mull -innerDl.
set E := y *m _ + xi.
rewrite fix_columnsE -mulmxA inner_mulr /Z fix_columnsE trM; congr (inner _ _).
by rewrite tr_diag_mx mulmxA trmx_inv trmxK.
Qed.
End diff.
