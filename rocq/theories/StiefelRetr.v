(** Proofs about the retractions of the Stiefel manifold and their derivatives. *)
From mathcomp Require Import all_ssreflect all_algebra.
Require Import Ring Field.
From Verif Require Import MxTac StiefelModel StiefelSpec StiefelProofs.
Import Order.TTheory GRing.Theory Num.Theory.
Set Implicit Arguments.
Unset Strict Implicit.
Local Open Scope ring_scope.

Section linear.
Variable R : rcfType.
Add Field linear_field : (rcf_field R).

(** A square matrix whose rows are independent is invertible. *)
Lemma unit_rows n (A : 'M[R]_n) : (forall u : 'rV[R]_n, u *m A = 0 -> u = 0) -> A \in unitmx.
Proof.
move=> H; rewrite -row_free_unit -kermx_eq0; apply/eqP/row_matrixP => i.
by rewrite row0; apply: H; rewrite -row_mul mulmx_ker row0.
Qed.
Lemma unit_cols n (A : 'M[R]_n) : (forall u : 'cV[R]_n, A *m u = 0 -> u = 0) -> A \in unitmx.
Proof.
move=> H; rewrite -unitmx_tr; apply: unit_rows => u Hu.
by apply: trmx_inj; rewrite trmx0; apply: H; rewrite -[A]trmxK -trM Hu trmx0.
Qed.
Lemma sq_norm n (u : 'cV[R]_n) : (u^T *m u) 0 0 = 0 -> u = 0.
Proof. by move=> H; apply: inner_eq0; rewrite /inner /mxtrace big_ord1. Qed.
Lemma norm_ge0 m n (A : 'M[R]_(m, n)) (u : 'cV[R]_n) : 0 <= (u^T *m (A^T *m A) *m u) 0 0.
Proof.
have -> : (u^T *m (A^T *m A) *m u) = (A *m u)^T *m (A *m u) by mxz.
by have := inner_ge0 (A *m u); rewrite /inner /mxtrace big_ord1.
Qed.
(** r^T r = I + eta^T eta makes r invertible. *)
Lemma gram_unit m n (r : 'M[R]_n) (eta : 'M[R]_(m, n)) :
  r^T *m r = 1%:M + eta^T *m eta -> r \in unitmx.
Proof.
move=> H; apply: unit_cols => u Hu; apply: sq_norm.
have : (u^T *m (r^T *m r) *m u) 0 0 = 0 by rewrite -!mulmxA Hu !mulmx0 mxE.
rewrite H mulmxDr mulmxDl mulmx1 mxE => /eqP; rewrite paddr_eq0.
- by move=> /andP [/eqP -> _].
- by have := inner_ge0 u; rewrite /inner /mxtrace big_ord1.
- exact: norm_ge0.
Qed.

Section upper.
Variable n : nat.
Implicit Types r s : 'M[R]_n.
Lemma upper_mul r s : upper r -> upper s -> upper (r *m s).
Proof.
move=> Hr Hs i j Hij; rewrite mxE; apply: big1 => l _.
by case: (ltnP l i) => H; [rewrite Hr ?mul0r | rewrite Hs ?mulr0 //; apply: leq_trans H].
Qed.
Lemma upperN r : upper r -> upper (- r).
Proof. by move=> H i j Hij; rewrite mxE H ?oppr0. Qed.
(** An orthogonal upper triangular matrix is diagonal with entries 1 and -1. *)
Lemma upper_orth r : upper r -> orthonormal r ->
  forall i j, r i i ^+ 2 = 1 /\ (i != j -> r i j = 0).
Proof.
move=> Hu Ho; suff H : forall m (i : 'I_n), (i < m)%N -> r i i ^+ 2 = 1 /\ (forall j, i != j -> r i j = 0).
  by move=> i j; have [H1 H2] := H i.+1 i (leqnn _); split=> //; apply: H2.
elim=> [//|m IH] i Hi.
have E (j : 'I_n) : (i <= j)%N -> r i i * r i j = (i == j)%:R.
  move=> Hij; have := congr1 (fun A : 'M_n => A i j) Ho; rewrite !mxE => <-.
  rewrite (bigD1 i) //= mxE big1 ?addr0 // => l Hl; rewrite mxE.
  case: (ltnP i l) => Hil; first by rewrite (Hu l i) ?mul0r.
  have Hlt : (l < i)%N by rewrite ltn_neqAle Hil andbT.
  have [_ H2] := IH l (leq_trans Hlt Hi).
  by rewrite H2 ?mul0r.
have H1 : r i i ^+ 2 = 1 by rewrite expr2 E // eqxx.
split=> // j Hj; case: (ltnP j i) => Hji; first exact: Hu.
have H2 := E j Hji; rewrite (negbTE Hj) /= in H2; move/eqP: H2; rewrite mulf_eq0.
case/orP => /eqP // H0; move: H1; rewrite H0 expr0n /= => /eqP; by rewrite eq_sym oner_eq0.
Qed.

(** The signs by which rows and columns are multiplied. *)
Definition sgn_row r : 'rV[R]_n := \row_i (if r i i < 0 then -1 else 1).
Lemma sgn_sq r : diag_mx (sgn_row r) *m diag_mx (sgn_row r) = 1%:M.
Proof.
rewrite mulmx_diag; apply/matrixP => i j; rewrite !mxE.
by case: ifP => _; rewrite ?mulrNN mul1r.
Qed.
Lemma fix_columnsE m r (Q : 'M[R]_(m, n)) : fix_columns r Q = Q *m diag_mx (sgn_row r).
Proof. by apply/matrixP => i j; rewrite mul_mx_diag !mxE; case: ifP => _; rewrite ?mulrN1 ?mulr1. Qed.
Lemma fix_rowsE m r (A : 'M[R]_(n, m)) : fix_rows r A = diag_mx (sgn_row r) *m A.
Proof. by apply/matrixP => i j; rewrite mul_diag_mx !mxE; case: ifP => _; rewrite ?mulN1r ?mul1r. Qed.
End upper.
End linear.

Section qf.
Variable R : rcfType.
Add Field qf_field : (rcf_field R).
Variables p k : nat.
Local Notation ext := 'M[R]_(p + k, p).
Implicit Types x y v w eta xi Q : ext.
Implicit Types r : 'M[R]_p.

Lemma tangent_tr x v : tangent x v -> v^T *m x = - (x^T *m v).
Proof. by move=> <-; rewrite trM trmxK. Qed.
(** The triangular factor after the correction of signs. *)
Lemma fixed_qr A Q r : is_qr A Q r ->
  is_qr A (fix_columns r Q) (fix_rows r r) /\ forall i, 0 <= fix_rows r r i i.
Proof.
case=> HA HQ Hr; split.
  split; first by rewrite fix_columnsE fix_rowsE mulmxA -[Q *m _ *m _]mulmxA sgn_sq mulmx1.
    by rewrite /orthonormal fix_columnsE; mxz; rewrite tr_diag_mx -[_ *m Q^T *m _]mulmxA HQ mulmx1 sgn_sq.
  by move=> i j Hij; rewrite mxE (Hr i j) // oppr0 if_same.
move=> i; rewrite mxE; case: ifP => H; first by rewrite oppr_ge0 ltW.
by rewrite leNgt H.
Qed.

(** Uniqueness of the QR decomposition with positive diagonal. *)
Lemma qr_gram (A Q : ext) r : is_qr A Q r -> A^T *m A = r^T *m r.
Proof. by case=> -> HQ _; mxz; rewrite (ortho_r _ HQ). Qed.
Lemma tangent_gram x eta : orthonormal x -> tangent x eta -> (x + eta)^T *m (x + eta) = 1%:M + eta^T *m eta.
Proof.
move=> Hx He; mxz; rewrite Hx (tangent_tr He).
by mxlin R; rng R.
Qed.
Lemma qr_unit x eta Q r : orthonormal x -> tangent x eta -> is_qr (x + eta) Q r -> r \in unitmx.
Proof. by move=> Hx He H; apply: (gram_unit (eta := eta)); rewrite -(qr_gram H) tangent_gram. Qed.
Lemma upper_unit_diag n (r : 'M[R]_n) : upper r -> r \in unitmx -> forall i, r i i != 0.
Proof.
move=> Hu; rewrite unitmxE -det_tr det_trig; last first.
  by apply/is_trig_mxP => i j Hij; rewrite mxE Hu.
by rewrite unitfE => /prodf_neq0 H i; have := H i isT; rewrite mxE.
Qed.

Section retraction.
Variable QR : ext -> ext * 'M[R]_p.

Lemma qfE x eta : qf_retraction QR x eta = fix_columns (QR (x + eta)).2 (QR (x + eta)).1.
Proof. by rewrite /qf_retraction; case: (QR _). Qed.
Lemma qf_ok x eta : qr_at QR (x + eta) -> orthonormal x -> tangent x eta ->
  exists r, is_qr (x + eta) (qf_retraction QR x eta) r /\ forall i, 0 < r i i.
Proof.
move=> H Hx He; have [H1 H2] := fixed_qr H.
exists (fix_rows (QR (x + eta)).2 (QR (x + eta)).2); rewrite qfE; split=> // i.
rewrite lt_neqAle H2 eq_sym andbT.
by apply: (upper_unit_diag (qr_upper H1)); apply: qr_unit He H1.
Qed.
Lemma qf_orth x eta : qr_at QR (x + eta) -> orthonormal (qf_retraction QR x eta).
Proof. by move=> H; rewrite qfE; have [[]] := fixed_qr H. Qed.
Lemma qf_zero x : qr_at QR x -> orthonormal x -> qf_retraction QR x 0 = x.
Proof.
rewrite /qr_at => H Hx; rewrite qfE addr0.
set Q := (QR x).1 in H *; set r := (QR x).2 in H *.
have Ho : orthonormal r by rewrite /orthonormal -(qr_gram H).
have Hd := upper_orth (qr_upper H) Ho.
rewrite [RHS](qr_product H) fix_columnsE; congr (_ *m _).
apply/matrixP => i j; rewrite !mxE; have [H1 H2] := Hd i j.
case: eqP => [<-|Hij]; last by rewrite mulr0n H2 //; apply/eqP.
rewrite mulr1n; move/eqP: H1; rewrite sqrf_eq1 => /orP [] /eqP ->.
  by rewrite ltr10.
by rewrite ltrN10.
Qed.
End retraction.
End qf.
